(** Fp12 is a field when [zeta = xi^((q^2-1)/6)] is a primitive sixth root of unity: every non-zero element is invertible. *)
From Coq Require Import ZArith NArith Znumtheory Lia List Bool Ring.
From Verif Require Import Field Spec Context Utils Logic Gate GateProofs Pocklington ExtSpec ExtSpec2 RingPow CycSpec FrobSpec Cyclo.
Import ListNotations.
Local Open Scope Z_scope.

Section Fp12Field.
Context {m : positive} (xi0 : Z).
Notation X2 := (x2 m).
Notation xi := (xi (m:=m) xi0).
Notation w6 := (w6 (m:=m)).
Context (Hm : prime (Z.pos m)) (H3 : Z.pos m mod 4 = 3) (H6 : Z.pos m mod 6 = 1) (Hz : primitive6 (m:=m) xi0).
Notation q := (N.pos m).
Notation mul := (w6_mul (m:=m) xi0).
Notation p2 := (npow (x2_1 (m:=m)) x2_mul).
Notation WR := (w6_ring (m:=m) xi0).
Add Ring X2ringk : (x2_ring (m:=m)).
Add Ring W6ringk : WR.
Ltac tuple := repeat match goal with |- (_, _) = (_, _) => apply f_equal2 end.
Notation z := (zeta (m:=m) xi0).
Declare Scope x2_scope.
Infix "+" := x2_add : x2_scope.
Infix "*" := x2_mul : x2_scope.
Infix "-" := x2_sub : x2_scope.
Local Open Scope x2_scope.
Notation "0" := (x2_0 (m:=m)) : x2_scope.
Notation "1" := (x2_1 (m:=m)) : x2_scope.
Notation two := (x2_add (x2_1 (m:=m)) x2_1).
Notation three := (x2_add (x2_add (x2_1 (m:=m)) x2_1) x2_1).
Notation integral := (x2_integral Hm H3).
(** the value of [w^6] is not a cube in Fp2 *)
Lemma xi_noncube s : s * (s * s) <> xi.
Proof.
  intros E. assert (Ns : s <> 0). { intros ->. apply (xi_nz xi0 Hm). rewrite <- E. ring. }
  pose proof (q6 H6 2) as Q. change (N.of_nat 2) with 2%N in Q.
  assert (P1 : p2 s (q ^ 2 - 1) = 1).
  { apply (x2_cancel Hm H3 _ _ s Ns). pose proof (x2_frob xi0 Hm H3 s 2) as FR. change (N.of_nat 2) with 2%N in FR. unfold cj in FR. cbn [Nat.even] in FR.
    pose proof (q2_pos (m:=m)). transitivity (p2 s (N.succ (q ^ 2 - 1))); [rewrite (npow_succ x2_1 x2_mul); ring|]. replace (N.succ (q ^ 2 - 1)) with (q ^ 2)%N by lia. rewrite FR. ring. }
  assert (P2 : z * z = 1).
  { unfold zeta, gam. change (N.of_nat 2) with 2%N. rewrite <- E. rewrite <- !(npow_add _ _ _ _ _ _ (x2_ring (m:=m))).
    replace (s * (s * s)) with (p2 s 3). 2:{ change 3%N with (N.succ 2). rewrite (npow_succ x2_1 x2_mul), (npow_2 _ _ _ _ _ _ (x2_ring (m:=m))). reflexivity. }
    rewrite <- (npow_mul _ _ _ _ _ _ (x2_ring (m:=m))). etransitivity; [|exact P1]. f_equal. clear - Q. set (e := ((q ^ 2 - 1) / 6)%N) in *. clearbody e. set (qq := (q ^ 2)%N) in *. clearbody qq. lia. }
  unfold primitive6 in Hz. rewrite Hz in P2. assert (Z2 : z = two). { transitivity (z - 1 + 1); [ring|]. rewrite P2. ring. }
  apply (three_nz Hm H3 H6). rewrite Z2 in Hz. transitivity (two * two - 1); [ring|]. rewrite Hz. ring.
Qed.
(** the cubic extension: [c0 + c1 v + c2 v^2], [v^3 = xi] *)
Definition norm6 (c0 c1 c2 : X2) : X2 := c0 * (c0 * c0) + xi * (c1 * (c1 * c1)) + xi * (xi * (c2 * (c2 * c2))) - three * (xi * (c0 * (c1 * c2))).
Lemma x2_sq0 x : x * x = 0 -> x = 0. Proof. intros E. now destruct (integral _ _ E). Qed.
Lemma x2_cu0 x : x * (x * x) = 0 -> x = 0. Proof. intros E. destruct (integral _ _ E) as [?|E2]; auto. now apply x2_sq0. Qed.
Lemma cube_ratio c d : c * (c * c) = xi * (d * (d * d)) -> d = 0.
Proof.
  intros E. destruct (x2_is0 d) eqn:Z0; [now apply x2_is0_eq|]. exfalso. assert (N : d <> 0) by (intros ->; rewrite (proj2 (x2_is0_eq _) eq_refl) in Z0; discriminate).
  pose proof (x2_inv_ok Hm H3 d N) as I0. apply (xi_noncube (c * x2_inv d)). transitivity ((c * (c * c)) * (x2_inv d * (x2_inv d * x2_inv d))); [ring|]. rewrite E.
  transitivity (xi * ((d * x2_inv d) * ((d * x2_inv d) * (d * x2_inv d)))); [ring|]. rewrite I0. ring.
Qed.
Lemma square_ratio c d : c * c = xi * (d * d) -> d = 0.
Proof.
  intros E. destruct (x2_is0 d) eqn:Z0; [now apply x2_is0_eq|]. exfalso. assert (N : d <> 0) by (intros ->; rewrite (proj2 (x2_is0_eq _) eq_refl) in Z0; discriminate).
  pose proof (x2_inv_ok Hm H3 d N) as I0. apply (xi_nonsquare xi0 Hm H3 H6 Hz (c * x2_inv d)). transitivity ((c * c) * (x2_inv d * x2_inv d)); [ring|]. rewrite E.
  transitivity (xi * ((d * x2_inv d) * (d * x2_inv d))); [ring|]. rewrite I0. ring.
Qed.
Lemma sub0 (a b : X2) : a - b = 0 -> a = b. Proof. intros E. transitivity (a - b + b); [ring|]. rewrite E. ring. Qed.
Lemma norm6_0 c0 c1 c2 : norm6 c0 c1 c2 = 0 -> c0 = 0 /\ c1 = 0 /\ c2 = 0.
Proof.
  intros E. set (d1 := xi * (c2 * c2) - c0 * c1). set (d2 := c1 * c1 - c0 * c2).
  assert (D : d1 * (d1 * d1) = xi * (d2 * (d2 * d2))).
  { apply sub0. transitivity (norm6 c0 c1 c2 * (xi * (c2 * (c2 * c2)) - c1 * (c1 * c1))); [unfold d1, d2, norm6; ring|]. rewrite E. ring. }
  pose proof (cube_ratio _ _ D) as D2. rewrite D2 in D. assert (D1 : d1 = 0) by (apply x2_cu0; rewrite D; ring).
  apply sub0 in D1, D2. assert (C2 : c2 = 0). { apply (cube_ratio c1). transitivity ((c1 * c1) * c1); [ring|]. rewrite D2. transitivity ((c0 * c1) * c2); [ring|]. rewrite <- D1. ring. }
  rewrite C2 in *. assert (C1 : c1 = 0) by (apply x2_sq0; rewrite D2; ring). rewrite C1 in *. split; auto. apply x2_cu0. rewrite <- E. unfold norm6. ring.
Qed.
Lemma norm6_sq a0 a1 a2 : norm6 (a0 * a0 + two * (xi * (a1 * a2))) (two * (a0 * a1) + xi * (a2 * a2)) (a1 * a1 + two * (a0 * a2)) = norm6 a0 a1 a2 * norm6 a0 a1 a2.
Proof. unfold norm6. ring. Qed.
Lemma norm6_v a0 a1 a2 : norm6 (xi * a2) a0 a1 = xi * norm6 a0 a1 a2. Proof. unfold norm6. ring. Qed.
Theorem w6_field (x : w6) : x <> w6_0 -> exists y, mul x y = w6_1.
Proof.
  destruct x as [[[[[a0 b0] a1] b1] a2] b2]. intros NZ.
  set (s0 := a0 * a0 + two * (xi * (a1 * a2))). set (s1 := two * (a0 * a1) + xi * (a2 * a2)). set (s2 := a1 * a1 + two * (a0 * a2)).
  set (t0 := b0 * b0 + two * (xi * (b1 * b2))). set (t1 := two * (b0 * b1) + xi * (b2 * b2)). set (t2 := b1 * b1 + two * (b0 * b2)).
  set (c0 := s0 - xi * t2). set (c1 := s1 - t0). set (c2 := s2 - t1).
  set (N := norm6 c0 c1 c2).
  assert (NN : N <> 0).
  { intros E. apply norm6_0 in E as (E0 & E1 & E2). apply sub0 in E0, E1, E2.
    assert (Q : norm6 a0 a1 a2 * norm6 a0 a1 a2 = xi * (norm6 b0 b1 b2 * norm6 b0 b1 b2)). { rewrite <- !norm6_sq. fold s0 s1 s2 t0 t1 t2. rewrite E0, E1, E2. apply norm6_v. }
    pose proof (square_ratio _ _ Q) as B0. rewrite B0 in Q. assert (A0 : norm6 a0 a1 a2 = 0) by (apply x2_sq0; rewrite Q; ring).
    apply norm6_0 in A0 as (-> & -> & ->), B0 as (-> & -> & ->). now apply NZ. }
  pose proof (x2_inv_ok Hm H3 N NN) as I0. set (i := x2_inv N) in *. clearbody i.
  exists (mul (mul (a0, x2_opp b0, a1, x2_opp b1, a2, x2_opp b2) (c0 * c0 - xi * (c1 * c2), 0, xi * (c2 * c2) - c0 * c1, 0, c1 * c1 - c0 * c2, 0)) (w6_c i)).
  transitivity (mul (mul (mul (a0, b0, a1, b1, a2, b2) (a0, x2_opp b0, a1, x2_opp b1, a2, x2_opp b2)) (c0 * c0 - xi * (c1 * c2), 0, xi * (c2 * c2) - c0 * c1, 0, c1 * c1 - c0 * c2, 0)) (w6_c i)); [ring|].
  replace (mul (a0, b0, a1, b1, a2, b2) (a0, x2_opp b0, a1, x2_opp b1, a2, x2_opp b2)) with ((c0, 0, c1, 0, c2, 0) : w6). 2:{ unfold c0, c1, c2, s0, s1, s2, t0, t1, t2, w6_mul. tuple; ring. }
  clearbody c0 c1 c2. replace (mul (c0, 0, c1, 0, c2, 0) (c0 * c0 - xi * (c1 * c2), 0, xi * (c2 * c2) - c0 * c1, 0, c1 * c1 - c0 * c2, 0)) with (w6_c N). 2:{ unfold N, norm6, w6_mul, w6_c. tuple; ring. }
  rewrite c_mul, I0. reflexivity.
Qed.
End Fp12Field.
