(** Inversion in the tower of ExtSpec.v: [Fp6 = Fp2[v]/(v^3 - xi)] by the adjugate, [Fp12 = Fp6[w]/(w^2 - v)] by conjugation over Fp6. *)
From Coq Require Import ZArith Znumtheory Lia List Bool Ring.
From Verif Require Import Field Spec Context Utils Logic Gate GateProofs Pocklington ExtSpec.
Import ListNotations.
Local Open Scope Z_scope.
Section Inv.
Context {m : positive} (xi0 : Z).
Notation X2 := (x2 m).
Add Ring X2ringc : (x2_ring (m:=m)).
Notation xi := (xi (m:=m) xi0).
Notation "a * b" := (x2_mul a b).
Notation "a + b" := (x2_add a b).
Notation "a - b" := (x2_sub a b).
Definition x6_0 : x6 (m:=m) := (x2_0, x2_0, x2_0).
Definition x6_1 : x6 (m:=m) := (x2_1, x2_0, x2_0).
Definition x6_opp (a : x6 (m:=m)) : x6 := let '(a0, a1, a2) := a in (x2_opp a0, x2_opp a1, x2_opp a2).
(** the norm of [c0 + c1 v + c2 v^2] over Fp2 *)
Definition x6_norm (a : x6 (m:=m)) : X2 := let '(c0, c1, c2) := a in
  c0 * (c0 * c0 - xi * (c1 * c2)) + xi * (c2 * (xi * (c2 * c2) - c0 * c1) + c1 * (c1 * c1 - c0 * c2)).
Definition x6_inv (a : x6 (m:=m)) : x6 := let i := x2_inv (x6_norm a) in let '(c0, c1, c2) := a in
  ((c0 * c0 - xi * (c1 * c2)) * i, (xi * (c2 * c2) - c0 * c1) * i, (c1 * c1 - c0 * c2) * i).
(** the norm of [a + b w] over Fp6, and the inverse [(a - b w) / (a^2 - b^2 v)] *)
Definition tower_norm (x : tower (m:=m)) : x6 := x6_add (x6_mul xi0 (fst x) (fst x)) (x6_opp (x6_mul_v xi0 (x6_mul xi0 (snd x) (snd x)))).
Definition tower_inv (x : tower (m:=m)) : tower := let i := x6_inv (tower_norm x) in (x6_mul xi0 (fst x) i, x6_opp (x6_mul xi0 (snd x) i)).
Definition tower_1 : tower (m:=m) := (x6_1, x6_0).
Ltac tuple := repeat match goal with |- (_, _) = (_, _) => apply f_equal2 end.
Lemma x6_inv_ok (Hm : prime (Z.pos m)) (H3 : Z.pos m mod 4 = 3) a : x6_norm a <> x2_0 -> x6_mul xi0 a (x6_inv a) = x6_1.
Proof.
  intros Hn. pose proof (x2_inv_ok Hm H3 _ Hn) as E. unfold x6_inv, x6_1. destruct a as [[c0 c1] c2]. cbv zeta. set (i := x2_inv _) in *. unfold x6_norm in E. clearbody i. unfold x6_mul.
  tuple; [rewrite <- E; ring|ring|ring].
Qed.
Lemma tower_inv_ok (Hm : prime (Z.pos m)) (H3 : Z.pos m mod 4 = 3) x : x6_norm (tower_norm x) <> x2_0 -> tower_mul xi0 x (tower_inv x) = tower_1.
Proof.
  intros Hn. pose proof (x6_inv_ok Hm H3 _ Hn) as E. unfold tower_inv. cbv zeta. set (i := x6_inv _) in *. clearbody i. unfold tower_norm in E. clear Hn.
  destruct x as [[[a0 a1] a2] [[b0 b1] b2]], i as [[i0 i1] i2]. unfold tower_mul, tower_1, x6_1, x6_0 in *. cbn [fst snd] in *. rewrite <- E. unfold x6_mul, x6_mul_v, x6_add, x6_opp.
  (* the second component must vanish, the first is the product of the norm with i *)
  tuple; try ring.
Qed.
(** inversion on coordinate vectors (0 for the zero vector, since [x2_inv] maps 0 to 0) *)
Definition x12_inv (v : list (F m)) : list (F m) := match tower_new v with Some x => tower_coeffs (tower_inv x) | None => [] end.
(** [v] has a non-zero norm over Fp2 *)
Definition x12_unit (v : list (F m)) : bool := match tower_new v with Some x => negb (x2_is0 (x6_norm (tower_norm x))) | None => false end.
Theorem x12_inv_ok (Hm : prime (Z.pos m)) (H3 : Z.pos m mod 4 = 3) v : length v = 12%nat -> x12_unit v = true -> x12_mul xi0 v (x12_inv v) = x12_1.
Proof.
  intros Hv Hu. unfold x12_unit, x12_inv in *. destruct (tower_coeffs_new v Hv) as (x & E & <-). rewrite E in *. rewrite <- tower_mul_ok, tower_inv_ok; auto.
  intros N. apply x2_is0_eq in N. rewrite N in Hu. discriminate.
Qed.
Lemma x12_inv_length v : length v = 12%nat -> length (x12_inv v) = 12%nat.
Proof. intros Hv. unfold x12_inv. destruct (tower_coeffs_new v Hv) as (x & E & <-). rewrite E. destruct (tower_inv x) as [[[[] []] []] [[[] []] []]]. reflexivity. Qed.
(** the norms are multiplicative, so every invertible element has a non-zero norm *)
Lemma x6_norm_mul a b : x6_norm (x6_mul xi0 a b) = x6_norm a * x6_norm b.
Proof. destruct a as [[a0 a1] a2], b as [[b0 b1] b2]. unfold x6_mul, x6_norm. ring. Qed.
Lemma tower_norm_mul x y : tower_norm (tower_mul xi0 x y) = x6_mul xi0 (tower_norm x) (tower_norm y).
Proof.
  destruct x as [[[a0 a1] a2] [[b0 b1] b2]], y as [[[c0 c1] c2] [[d0 d1] d2]]. unfold tower_norm, tower_mul, x6_mul, x6_mul_v, x6_add, x6_opp. cbn [fst snd]. tuple; ring.
Qed.
Theorem x12_unit_iff (Hm : prime (Z.pos m)) (H3 : Z.pos m mod 4 = 3) v : length v = 12%nat -> (x12_unit v = true <-> exists w, length w = 12%nat /\ x12_mul xi0 v w = x12_1).
Proof.
  intros Hv. split.
  - intros Hu. exists (x12_inv v). split; [now apply x12_inv_length|now apply x12_inv_ok].
  - intros (w & Hw & E). unfold x12_unit. destruct (tower_coeffs_new v Hv) as (x & Ex & <-), (tower_coeffs_new w Hw) as (y & Ey & <-). rewrite Ex.
    rewrite <- tower_mul_ok in E. assert (E1 : tower_mul xi0 x y = tower_1).
    { assert (S : tower_new (tower_coeffs (tower_mul xi0 x y)) = tower_new (tower_coeffs (tower_1))) by (rewrite E; reflexivity). rewrite !tower_new_coeffs in S. apply (f_equal (fun o => match o with Some t => t | None => tower_1 end)) in S. exact S. }
    apply (f_equal (fun t => x6_norm (tower_norm t))) in E1. rewrite tower_norm_mul, x6_norm_mul in E1.
    apply negb_true_iff. destruct (x2_is0 (x6_norm (tower_norm x))) eqn:Z0; auto. exfalso. apply x2_is0_eq in Z0. rewrite Z0 in E1.
    assert (X : x6_norm (tower_norm tower_1) = x2_1). { unfold tower_1, tower_norm, x6_mul, x6_mul_v, x6_add, x6_opp, x6_1, x6_0, x6_norm. cbn [fst snd]. ring. }
    rewrite X in E1. assert (Y : x2_1 = x2_0 :> X2) by (rewrite <- E1; ring). unfold x2_1, x2_0 in Y. apply (f_equal fst) in Y. cbn [fst] in Y. now apply (F1_neq_0 m Hm) in Y.
Qed.
Lemma x12_unit_0 : x12_unit (repeat F0 12) = false.
Proof.
  unfold x12_unit. change (tower_new (repeat (F0 : F m) 12)) with (Some (x6_0, x6_0)). apply negb_false_iff, x2_is0_eq.
  unfold tower_norm, x6_mul, x6_mul_v, x6_add, x6_opp, x6_0, x6_norm. cbn [fst snd]. ring.
Qed.
End Inv.
