(** From the slope equations enforced by the curve gadgets to the group law. *)
From Coq Require Import ZArith Znumtheory Lia List Bool Ring Field.
From Verif Require Import Field Spec GateProofs EcGroup.
Local Open Scope F_scope.

Section EccFacts.
Variables (m : positive) (Hm : prime (Z.pos m)) (H3 : (3 < Z.pos m)%Z) (b : F m).
Notation Fm := (F m).
Add Field Ff : (F_field m Hm) (morphism (F_morph m), constants [Fcst]).
Notation onc2 := (onc2 m b).
Notation onc := (onc m b).
Notation eadd := (eadd m).
Notation line3 := (line3 m).

Lemma add_of_slope x1 y1 x2 y2 s : x1 <> x2 -> s * (x2 - x1) = y2 - y1 -> eadd (Some (x1, y1)) (Some (x2, y2)) = Some (line3 s x1 y1 x2).
Proof.
  intros D E. unfold EcGroup.eadd. pose proof D as D'. apply Feqb_neq in D'. rewrite D'. do 2 f_equal.
  unfold chord. rewrite <- E. assert (N : x2 - x1 <> F0) by (apply (sub_nz m); congruence).
  transitivity (s * (Finv (x2 - x1) * (x2 - x1))); [ring|]. rewrite (Finv_l _ _ Hm N). ring.
Qed.
Lemma dbl_nonzero x y s : b <> F0 -> onc2 x y -> s * (y * of_Z m 2) = x * of_Z m 3 * x -> y <> F0.
Proof.
  intros Hb A E ->. apply Hb. assert (X : x = F0).
  { assert (Z0 : x * of_Z m 3 * x = F0) by (rewrite <- E; ring). apply (F_integral m Hm) in Z0 as [Z0|Z0]; auto.
    apply (F_integral m Hm) in Z0 as [Z0|Z0]; auto. now apply (three_nz m H3) in Z0. }
  subst x. unfold EcGroup.onc2 in A. transitivity (F0 * F0 * F0 + b); [ring|]. rewrite <- A. ring.
Qed.
Lemma dbl_of_slope x y s : y <> F0 -> s * (y * of_Z m 2) = x * of_Z m 3 * x -> eadd (Some (x, y)) (Some (x, y)) = Some (line3 s x y x).
Proof.
  intros Hy E. unfold EcGroup.eadd. rewrite (proj2 (Feqb_eq _ x x) eq_refl). 
  assert (N : y <> - y). { intros E'. apply Hy. now apply (opp_eq_zero m Hm H3). } apply Feqb_neq in N. rewrite N. do 2 f_equal.
  unfold tangent. assert (N2 : of_Z m 2 * y <> F0) by (apply (mul_nz m Hm); [apply (two_nz m H3)|auto]).
  transitivity (x * of_Z m 3 * x * Finv (of_Z m 2 * y)); [ring|]. rewrite <- E.
  transitivity (s * (Finv (of_Z m 2 * y) * (of_Z m 2 * y))); [ring|]. rewrite (Finv_l _ _ Hm N2). ring.
Qed.
Lemma daa_of_slope x0 y0 x1 y1 s0 d : let x2 := s0 * s0 - x0 - x1 in
  x0 <> x1 -> x2 <> x0 -> s0 * (x1 - x0) = y1 - y0 -> d * (x2 - x0) = y0 * of_Z m 2 ->
  exists Q, eadd (Some (x0, y0)) (Some (x1, y1)) = Some Q /\ fst Q = x2 /\ eadd (Some (x0, y0)) (Some Q) = Some (line3 (- (s0 + d)) x0 y0 x2).
Proof.
  intros x2 D1 D2 E1 E2. exists (line3 s0 x0 y0 x1). split; [now apply add_of_slope|]. split; [reflexivity|].
  unfold EcGroup.line3 at 1. fold x2. apply add_of_slope; [congruence|].
  transitivity (- (s0 * (x2 - x0)) - d * (x2 - x0)); [ring|]. rewrite E2. ring.
Qed.
End EccFacts.
