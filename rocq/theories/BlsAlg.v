(** Replacing [Q] by [-Q] conjugates the Miller value. *)
From Coq Require Import ZArith NArith Znumtheory Lia List Bool Ring.
From Verif Require Import Field Spec Context Utils Logic Gate GateProofs Pocklington ExtSpec ExtSpec2 RingPow CycSpec FrobSpec Cyclo Fp12Field MillerSpec MillerAlg.
Import ListNotations.
Local Open Scope Z_scope.

Section BlsAlg.
Context {m : positive} (xi0 : Z).
Hypothesis Hm : prime (Z.pos m).
Hypothesis H3 : Z.pos m mod 4 = 3.
Hypothesis H6 : Z.pos m mod 6 = 1.
Hypothesis Hz6 : primitive6 (m:=m) xi0.
Notation w6 := (w6 (m:=m)).
Notation pt2 := (pt2 (m:=m)).
Notation wmul := (w6_mul (m:=m) xi0).
Notation "x ^^ e" := (npow (w6_1 (m:=m)) wmul x e) (at level 30).
Notation q := (N.pos m).
Add Ring X2ringn : (x2_ring (m:=m)).
Add Ring W6ringn : (w6_ring (m:=m) xi0).
Notation chord A B T := (chord_at xi0 (twist xi0 A) (twist xi0 B) (embed T)).
Notation tang A T := (tangent_at xi0 (twist xi0 A) (embed T)).
Notation C x := (x ^^ (q ^ 6)).
Ltac tuple := repeat match goal with |- (_, _) = (_, _) => apply f_equal2 end.
Lemma chord_negQ (A B : pt2) T : chord (pt_neg A) (pt_neg B) T = C (chord A B T).
Proof. destruct T as [X Y]. rewrite !chord_sparse, (frob_q6 xi0 Hm H3 H6 Hz6). unfold pt_neg. cbn [fst snd]. tuple; ring. Qed.
Lemma tang_negQ (A : pt2) T : tang (pt_neg A) T = C (tang A T).
Proof. destruct T as [X Y]. rewrite !tangent_sparse, (frob_q6 xi0 Hm H3 H6 Hz6). unfold pt_neg. cbn [fst snd]. tuple; ring. Qed.
Lemma inv_opp (a : x2 m) : a <> x2_0 -> x2_inv (x2_opp a) = x2_opp (x2_inv a).
Proof.
  intros N. assert (N' : x2_opp a <> x2_0) by (intros E; apply N; transitivity (x2_opp (x2_opp a)); [ring|rewrite E; ring]).
  pose proof (x2_inv_ok Hm H3 a N) as I. pose proof (x2_inv_ok Hm H3 _ N') as I'.
  transitivity (x2_mul (x2_inv (x2_opp a)) (x2_mul a (x2_inv a))); [rewrite I; ring|]. transitivity (x2_opp (x2_mul (x2_inv a) (x2_mul (x2_opp a) (x2_inv (x2_opp a))))); [ring|rewrite I'; ring].
Qed.
Lemma third_neg (s x1 y1 x2' : x2 m) : third (x2_opp s) x1 (x2_opp y1) x2' = pt_neg (third s x1 y1 x2').
Proof. unfold third, pt_neg. cbn [fst snd]. replace (x2_mul (x2_opp s) (x2_opp s)) with (x2_mul s s) by ring. apply f_equal2; [reflexivity|ring]. Qed.
Lemma is0_opp (a : x2 m) : x2_is0 (x2_opp a) = x2_is0 a.
Proof.
  apply eq_true_iff_eq. rewrite !x2_is0_eq. split; intros E; [transitivity (x2_opp (x2_opp a)); [ring|rewrite E; ring]|rewrite E; ring].
Qed.
Lemma dbl_negQ (A S : pt2) : pt_dbl A = Some S -> pt_dbl (pt_neg A) = Some (pt_neg S).
Proof.
  destruct A as [x y]. change (pt_neg (x, y)) with (x, x2_opp y). unfold pt_dbl. cbn [fst snd]. rewrite is0_opp. destruct (x2_is0 y) eqn:E; [discriminate|]. intros X.
  assert (Ny : y <> x2_0) by (intros E'; apply x2_is0_eq in E'; congruence).
  assert (N2 : x2_mul (x2_add x2_1 x2_1) y <> x2_0).
  { apply (x2_no_zero_div Hm H3); auto. intros E2. apply (f_equal fst) in E2. unfold x2_add, x2_1, x2_0 in E2. cbn [fst] in E2. apply (f_equal val) in E2. pose proof (prime_ge_2 _ Hm).
    rewrite val_add in E2. unfold F1, F0 in E2. rewrite !val_of_Z, !(Z.mod_small 1), !(Z.mod_small 0) in E2 by lia. change (1 + 1) with 2 in E2.
    destruct (Z.eq_dec (Z.pos m) 2) as [Em|]; [rewrite Em in H3; discriminate|]. rewrite Z.mod_small in E2 by lia. discriminate. }
  assert (S' : third (x2_mul (x2_mul (x2_mul (x2_add (x2_add x2_1 x2_1) x2_1) x) x) (x2_inv (x2_mul (x2_add x2_1 x2_1) y))) x y x = S) by congruence. rewrite <- S'. f_equal. rewrite <- third_neg. f_equal.
  replace (x2_mul (x2_add x2_1 x2_1) (x2_opp y)) with (x2_opp (x2_mul (x2_add x2_1 x2_1) y)) by ring. rewrite inv_opp by exact N2. ring.
Qed.
Lemma add_negQ (A B S : pt2) : pt_add A B = Some S -> pt_add (pt_neg A) (pt_neg B) = Some (pt_neg S).
Proof.
  destruct A as [x y], B as [x' y']. change (pt_neg (x, y)) with (x, x2_opp y). change (pt_neg (x', y')) with (x', x2_opp y'). unfold pt_add. cbn [fst snd]. destruct (same_x x x'); [discriminate|]. intros X.
  assert (S' : third (x2_mul (x2_sub y' y) (x2_inv (x2_sub x' x))) x y x' = S) by congruence. rewrite <- S'. f_equal. rewrite <- third_neg. f_equal. ring.
Qed.
Lemma frob_negQ (A : pt2) : pt_frob xi0 (pt_neg A) = pt_neg (pt_frob xi0 A).
Proof.
  destruct A as [x y]. unfold pt_frob, pt_neg. cbn [fst snd]. apply f_equal2; [reflexivity|]. replace (x2_conj (x2_opp y)) with (x2_opp (x2_conj y)); [ring|]. destruct y as [y0 y1]. unfold x2_opp, x2_conj. cbn [fst snd]. reflexivity.
Qed.
Lemma neg_neg (A : pt2) : pt_neg (pt_neg A) = A.
Proof. destruct A as [x y]. unfold pt_neg. cbn [fst snd]. apply f_equal2; [reflexivity|ring]. Qed.
Lemma signed_negQ d (A : pt2) : signed d (pt_neg A) = pt_neg (signed d A).
Proof. unfold signed. destruct (Z.eqb d 1); [reflexivity|]. now rewrite neg_neg. Qed.
Notation WR := (w6_ring (m:=m) xi0).
Lemma C_mul x y : C (wmul x y) = wmul (C x) (C y). Proof. apply (npow_base _ _ _ _ _ _ WR). Qed.
Lemma madd_negQ T (f : w6) R S f2 R2 : miller_add xi0 T (f, R) S = Some (f2, R2) -> miller_add xi0 T (C f, pt_neg R) (pt_neg S) = Some (C f2, pt_neg R2).
Proof.
  unfold miller_add. destruct (pt_add R S) as [RS|] eqn:E; [|discriminate]. intros X. rewrite (add_negQ _ _ _ E). injection X as <- <-. rewrite chord_negQ, C_mul. reflexivity.
Qed.
Lemma iter_negQ Q T d (f : w6) R f2 R2 : miller_iter xi0 Q T (f, R) d = Some (f2, R2) -> miller_iter xi0 (pt_neg Q) T (C f, pt_neg R) d = Some (C f2, pt_neg R2).
Proof.
  unfold miller_iter, miller_dbl. destruct (pt_dbl R) as [RR|] eqn:E; [|discriminate]. rewrite (dbl_negQ _ _ E), tang_negQ, <- !C_mul. destruct (Z.eqb d 0); [intros X; injection X as <- <-; reflexivity|]. rewrite signed_negQ. apply madd_negQ.
Qed.
Lemma iters_negQ Q T ds : forall (f : w6) R f2 R2, miller_iters xi0 Q T (f, R) ds = Some (f2, R2) -> miller_iters xi0 (pt_neg Q) T (C f, pt_neg R) ds = Some (C f2, pt_neg R2).
Proof.
  induction ds as [|d ds IH]; cbn [miller_iters]; intros f R f2 R2 E; [injection E as <- <-; reflexivity|].
  destruct (miller_iter xi0 Q T (f, R) d) as [[f3 R3]|] eqn:E3; [|discriminate]. rewrite (iter_negQ _ _ _ _ _ _ _ E3). auto.
Qed.
Theorem miller_negQ Q T ds (w : w6) : miller xi0 Q T ds = Some w -> miller xi0 (pt_neg Q) T ds = Some (C w).
Proof.
  unfold miller. destruct ds as [|d ds]; [discriminate|]. destruct (miller_iters xi0 Q T (w6_1, signed d Q) ds) as [[f R]|] eqn:E1; [|discriminate]. intros E.
  rewrite signed_negQ. pose proof (iters_negQ _ _ _ _ _ _ _ E1) as X. rewrite (npow_one _ _ _ _ _ _ WR) in X. rewrite X.
  unfold miller_final in *. destruct (miller_add xi0 T (f, R) (pt_frob xi0 Q)) as [[f2 R2]|] eqn:E2; [|discriminate]. rewrite !frob_negQ, (madd_negQ _ _ _ _ _ _ E2). injection E as <-. rewrite chord_negQ, C_mul. reflexivity.
Qed.
End BlsAlg.
