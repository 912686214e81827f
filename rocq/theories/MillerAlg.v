(** Algebra of Miller values: never zero off the 2-torsion, and replacing [P] by [-P] inverts the pairing. *)
From Coq Require Import ZArith NArith Znumtheory Lia List Bool Ring.
From Verif Require Import Field Spec Context Utils Logic Gate GateProofs Pocklington ExtSpec ExtSpec2 RingPow CycSpec FrobSpec Cyclo Fp12Field MillerSpec.
Import ListNotations.
Local Open Scope Z_scope.

Section MillerAlg.
Context {m : positive} (xi0 : Z).
Hypothesis Hm : prime (Z.pos m).
Hypothesis H3 : Z.pos m mod 4 = 3.
Hypothesis H6 : Z.pos m mod 6 = 1.
Hypothesis Hz6 : primitive6 (m:=m) xi0.
Notation w6 := (w6 (m:=m)).
Notation wmul := (w6_mul (m:=m) xi0).
Notation WR := (w6_ring (m:=m) xi0).
Notation "x ^^ e" := (npow (w6_1 (m:=m)) wmul x e) (at level 30).
Notation q := (N.pos m).
Add Ring X2ringa : (x2_ring (m:=m)).
Add Ring W6ringa : (w6_ring (m:=m) xi0).
Add Ring Fringa : (F_ring m) (morphism (F_morph m), constants [Fcst]).
Notation chord A B T := (chord_at xi0 (twist xi0 A) (twist xi0 B) (embed T)).
Notation tang A T := (tangent_at xi0 (twist xi0 A) (embed T)).
Definition neg1 (T : F m * F m) : F m * F m := (fst T, Fopp (snd T)).
Notation C x := (x ^^ (q ^ 6)).
Ltac tuple := repeat match goal with |- (_, _) = (_, _) => apply f_equal2 end.
Lemma x2_p_opp (a : x2 m) (Y : F m) : x2_mul a (Fopp Y, F0) = x2_opp (x2_mul a (Y, F0)).
Proof. assert (((- Y)%F, F0) = x2_opp (Y, F0)) as ->; [unfold x2_opp; cbn [fst snd]; f_equal; ring|ring]. Qed.
Lemma chord_neg (A B : pt2 (m:=m)) T : chord A B (neg1 T) = w6_opp (C (chord A B T)).
Proof.
  destruct T as [X Y]. unfold neg1. cbn [fst snd]. rewrite !chord_sparse, (frob_q6 xi0 Hm H3 H6 Hz6), x2_p_opp. unfold w6_opp. tuple; ring.
Qed.
Lemma tang_neg (A : pt2 (m:=m)) T : tang A (neg1 T) = C (tang A T).
Proof.
  destruct T as [X Y]. unfold neg1. cbn [fst snd]. rewrite !tangent_sparse, (frob_q6 xi0 Hm H3 H6 Hz6), x2_p_opp. tuple; ring.
Qed.
(** up to sign *)
Definition pm (y x : w6) : Prop := y = x \/ y = w6_opp x.
Lemma pm_mul y x v u : pm y x -> pm v u -> pm (wmul y v) (wmul x u).
Proof. intros [-> | ->] [-> | ->]; unfold pm; [left; ring|right; ring|right; ring|left; ring]. Qed.
Lemma C_mul x y : C (wmul x y) = wmul (C x) (C y). Proof. apply (npow_base _ _ _ _ _ _ WR). Qed.
Lemma pm_chord A B T : pm (chord A B (neg1 T)) (C (chord A B T)). Proof. right. apply chord_neg. Qed.
Lemma pm_tang A T : pm (tang A (neg1 T)) (C (tang A T)). Proof. left. apply tang_neg. Qed.
Lemma add_neg T f f' R S f2 R2 : pm f' (C f) -> miller_add xi0 T (f, R) S = Some (f2, R2) -> exists f2', miller_add xi0 (neg1 T) (f', R) S = Some (f2', R2) /\ pm f2' (C f2).
Proof.
  intros H E. unfold miller_add in *. destruct (pt_add R S) as [RS|]; [|discriminate]. injection E as <- <-. eexists. split; [reflexivity|]. rewrite C_mul. apply pm_mul; auto using pm_chord.
Qed.
Lemma iter_neg Q T d f f' R f2 R2 : pm f' (C f) -> miller_iter xi0 Q T (f, R) d = Some (f2, R2) -> exists f2', miller_iter xi0 Q (neg1 T) (f', R) d = Some (f2', R2) /\ pm f2' (C f2).
Proof.
  intros H E. unfold miller_iter, miller_dbl in *. destruct (pt_dbl R) as [RR|]; [|discriminate].
  assert (H' : pm (wmul (wmul f' f') (tang R (neg1 T))) (C (wmul (wmul f f) (tang R T)))) by (rewrite !C_mul; auto using pm_mul, pm_tang).
  destruct (Z.eqb d 0); [|eapply add_neg; eauto]. injection E as <- <-. eauto.
Qed.
Lemma iters_neg Q T ds f f' R f2 R2 : pm f' (C f) -> miller_iters xi0 Q T (f, R) ds = Some (f2, R2) -> exists f2', miller_iters xi0 Q (neg1 T) (f', R) ds = Some (f2', R2) /\ pm f2' (C f2).
Proof.
  revert f f' R. induction ds as [|d ds IH]; cbn [miller_iters]; intros f f' R H E; [injection E as <- <-; eauto|].
  destruct (miller_iter xi0 Q T (f, R) d) as [[f3 R3]|] eqn:E3; [|discriminate]. destruct (iter_neg _ _ _ _ _ _ _ _ H E3) as (f3' & -> & H'). eauto.
Qed.
Lemma C_1 : C w6_1 = w6_1. Proof. apply (npow_one _ _ _ _ _ _ WR). Qed.
Theorem miller_neg Q T ds w : miller xi0 Q T ds = Some w -> exists w', miller xi0 Q (neg1 T) ds = Some w' /\ pm w' (C w).
Proof.
  unfold miller. destruct ds as [|d ds]; [discriminate|]. intros E.
  destruct (miller_iters xi0 Q T (w6_1, signed d Q) ds) as [[f R]|] eqn:E1; [|discriminate].
  destruct (iters_neg Q T ds w6_1 w6_1 (signed d Q) f R) as (f' & -> & H); [rewrite C_1; now left|exact E1|].
  unfold miller_final in *. destruct (miller_add xi0 T (f, R) (pt_frob xi0 Q)) as [[f2 R2]|] eqn:E2; [|discriminate].
  destruct (add_neg _ _ _ _ _ _ _ H E2) as (f2' & -> & H'). injection E as <-. eexists. split; [reflexivity|]. rewrite C_mul. apply pm_mul; auto using pm_chord.
Qed.
(** ** never zero *)
Lemma w6_no_zero_div (x y : w6) : x <> w6_0 -> y <> w6_0 -> wmul x y <> w6_0.
Proof.
  intros Nx Ny E. destruct (w6_field xi0 Hm H3 H6 Hz6 x Nx) as (i & Ei). apply Ny. transitivity (wmul (wmul x i) y); [rewrite Ei; ring|]. transitivity (wmul i (wmul x y)); [ring|]. rewrite E. ring.
Qed.
Lemma x2_no_zero_div (x y : x2 m) : x <> x2_0 -> y <> x2_0 -> x2_mul x y <> x2_0.
Proof. intros Nx Ny E. pose proof (x2_inv_ok Hm H3 x Nx) as I. apply Ny. transitivity (x2_mul (x2_mul x (x2_inv x)) y); [rewrite I; ring|transitivity (x2_mul (x2_inv x) (x2_mul x y)); [ring|rewrite E; ring]]. Qed.
Lemma chord_n0 (A B : pt2 (m:=m)) X Y : fst A <> fst B -> Y <> F0 -> chord A B (X, Y) <> w6_0.
Proof.
  intros N NY E. rewrite chord_sparse in E. apply (f_equal (fun a : w6 => let '(_, _, a2, _, _, _) := a in a2)) in E. cbn in E. revert E. apply x2_no_zero_div.
  - intros E. apply N. transitivity (x2_sub (fst B) (x2_sub (fst B) (fst A))); [ring|rewrite E; ring].
  - intros E. apply NY. now injection E.
Qed.
Lemma tang_n0 (A : pt2 (m:=m)) X Y : snd A <> x2_0 -> Y <> F0 -> tang A (X, Y) <> w6_0.
Proof.
  intros N NY E. rewrite tangent_sparse in E. apply (f_equal (fun a : w6 => let '(_, _, _, a3, _, _) := a in a3)) in E. cbn in E. revert E. apply x2_no_zero_div; [apply x2_no_zero_div; auto|].
  - intros E. apply (f_equal fst) in E. unfold x2_add, x2_1, x2_0 in E. cbn [fst] in E. apply (f_equal val) in E. 
    assert (2 < Z.pos m). { pose proof (prime_ge_2 _ Hm). destruct (Z.eq_dec (Z.pos m) 2) as [E2|]; [rewrite E2 in H3; discriminate|lia]. }
    rewrite val_add in E. unfold F1, F0 in E. rewrite !val_of_Z, !(Z.mod_small 1), !(Z.mod_small 0) in E by lia. change (1 + 1) with 2 in E. rewrite Z.mod_small in E by lia. discriminate.
  - intros E. apply NY. now injection E.
Qed.
Lemma add_n0 (X Y : F m) (f : w6) R S (f2 : w6) R2 : Y <> F0 -> f <> w6_0 -> miller_add xi0 (X, Y) (f, R) S = Some (f2, R2) -> f2 <> w6_0.
Proof.
  intros NY N E. unfold miller_add in E. destruct (pt_add R S) as [RS|] eqn:ES; [|discriminate]. injection E as <- <-. apply w6_no_zero_div; auto. apply chord_n0; auto. intros E. unfold pt_add in ES. rewrite (proj2 (same_x_eq _ _) E) in ES. discriminate.
Qed.
Lemma iters_n0 Q (X Y : F m) ds (f : w6) R f2 R2 : Y <> F0 -> f <> w6_0 -> miller_iters xi0 Q (X, Y) (f, R) ds = Some (f2, R2) -> f2 <> w6_0.
Proof.
  intros NY. revert f R. induction ds as [|d ds IH]; cbn [miller_iters]; intros f R N E; [now injection E as <- <-|].
  destruct (miller_iter xi0 Q (X, Y) (f, R) d) as [[f3 R3]|] eqn:E3; [|discriminate]. apply (IH f3 R3); auto.
  unfold miller_iter, miller_dbl in E3. destruct (pt_dbl R) as [RR|] eqn:ED; [|discriminate].
  assert (N' : wmul (wmul f f) (tang R (X, Y)) <> w6_0). { repeat apply w6_no_zero_div; auto. apply tang_n0; auto. intros E'. unfold pt_dbl in ED. rewrite (proj2 (x2_is0_eq _) E') in ED. discriminate. }
  destruct (Z.eqb d 0); [now injection E3 as <- <-|]. eapply add_n0; eauto.
Qed.
Lemma w6_1_n0 : w6_1 <> w6_0 :> w6.
Proof.
  intros E. apply (f_equal (fun a : w6 => let '(a0, _, _, _, _, _) := a in fst a0)) in E. cbn in E. revert E. exact (F1_neq_0 m Hm).
Qed.
(** the value is not zero when [P] is not of order 2 and the last line joins points with different x *)
Theorem miller_n0 Q (X Y : F m) ds w : Y <> F0 -> miller xi0 Q (X, Y) ds = Some w ->
  (forall d ds' f R R', ds = d :: ds' -> miller_iters xi0 Q (X, Y) (w6_1, signed d Q) ds' = Some (f, R) -> pt_add R (pt_frob xi0 Q) = Some R' -> fst R' <> fst (pt_frob xi0 (pt_frob xi0 Q))) -> w <> w6_0.
Proof.
  intros NY E HL. unfold miller in E. destruct ds as [|d ds]; [discriminate|]. destruct (miller_iters xi0 Q (X, Y) (w6_1, signed d Q) ds) as [[f R]|] eqn:E1; [|discriminate].
  pose proof (iters_n0 _ _ _ _ _ _ _ _ NY w6_1_n0 E1) as N1. specialize (HL d ds f R).
  unfold miller_final in E. destruct (miller_add xi0 (X, Y) (f, R) (pt_frob xi0 Q)) as [[f2 R2]|] eqn:E2; [|discriminate]. injection E as <-.
  apply w6_no_zero_div; [eapply add_n0; eauto|]. apply chord_n0; auto. unfold pt_neg. cbn [fst]. apply (HL R2); auto. unfold miller_add in E2. destruct (pt_add R (pt_frob xi0 Q)); [|discriminate]. injection E2 as _ <-. reflexivity.
Qed.
(** ** the final power *)
Lemma fermat12 (w : w6) : w <> w6_0 -> w ^^ (q ^ 12 - 1) = w6_1.
Proof.
  intros N. assert (E : w ^^ (q ^ 12) = w).
  { replace (q ^ 12)%N with (q ^ 6 * q ^ 6)%N by (rewrite <- N.pow_add_r; reflexivity). rewrite (npow_mul _ _ _ _ _ _ WR). destruct w as [[[[[a0 a1] a2] a3] a4] a5]. rewrite !(frob_q6 xi0 Hm H3 H6 Hz6). tuple; ring. }
  assert (P : (q ^ 12 - 1 + 1 = q ^ 12)%N). { assert (q ^ 12 <> 0)%N by (apply N.pow_nonzero; discriminate). lia. }
  rewrite <- P, (npow_add _ _ _ _ _ _ WR), (npow_1 _ _ _ _ _ _ WR) in E. destruct (w6_field xi0 Hm H3 H6 Hz6 w N) as (i & Ei).
  transitivity (wmul (wmul (w ^^ (q ^ 12 - 1)) w) i); [transitivity (wmul (w ^^ (q ^ 12 - 1)) (wmul w i)); [rewrite Ei; ring|ring]|]. rewrite E. exact Ei.
Qed.
Lemma pm_even y x e : pm y x -> y ^^ (2 * e) = x ^^ (2 * e).
Proof. intros H. rewrite !(npow_mul _ _ _ _ _ _ WR). f_equal. change 2%N with (1 + 1)%N. rewrite !(npow_add _ _ _ _ _ _ WR), !(npow_1 _ _ _ _ _ _ WR). destruct H as [-> | ->]; ring. Qed.
(** with [r l = q^4 - q^2 + 1], the exponent [E = (q^12 - 1)/r] *)
Theorem neg_inverts (w w' : w6) (r l E : N) : (r * l = q ^ 4 - q ^ 2 + 1)%N -> (E * r = q ^ 12 - 1)%N -> (E = l * ((q ^ 2 + 1) * (q ^ 6 - 1)))%N -> w <> w6_0 -> pm w' (C w) -> wmul (w' ^^ E) (w ^^ E) = w6_1.
Proof.
  intros El Er EE N H.
  assert (Ev : exists e, (E = 2 * e)%N).
  { assert (M2 : (q mod 2 = 1)%N). { apply N2Z.inj. rewrite N2Z.inj_mod. change (Z.of_N q) with (Z.pos m). change (Z.of_N 2) with 2. change (Z.of_N 1) with 1. pose proof (Z.div_mod (Z.pos m) 4 ltac:(lia)) as D. rewrite H3 in D. rewrite D. replace (4 * (Z.pos m / 4) + 3) with (1 + (2 * (Z.pos m / 4) + 1) * 2) by ring. rewrite Z.mod_add by lia. reflexivity. }
    assert (Q1 : exists e, (q ^ 6 - 1 = 2 * e)%N).
    { exists ((q ^ 6 - 1) / 2)%N. pose proof (N.div_mod (q ^ 6 - 1) 2 ltac:(lia)) as D. assert (O : (q ^ 6 mod 2 = 1)%N). { assert (forall k, ((q ^ N.of_nat k) mod 2 = 1)%N) as G. { induction k as [|k IH]; [reflexivity|]. rewrite Nat2N.inj_succ, N.pow_succ_r', N.mul_mod, M2, IH by lia. reflexivity. } exact (G 6%nat). }
      assert (NZ : (q ^ 6 <> 0)%N) by (apply N.pow_nonzero; discriminate). clear EE H. generalize dependent (q ^ 6)%N. intros z D O NZ. pose proof (N.div_mod z 2 ltac:(lia)) as D2. rewrite O in D2. assert (D3 : ((z - 1) mod 2 = 0)%N). { replace (z - 1)%N with (z / 2 * 2)%N by lia. apply N.mod_mul. lia. } lia. }
    destruct Q1 as (e & He). exists (l * ((q ^ 2 + 1) * e))%N. rewrite EE, He. ring. }
  destruct Ev as (e & Ee). assert (EP : w' ^^ E = C w ^^ E) by (rewrite Ee; exact (pm_even _ _ e H)). rewrite EP. clear EP.
  rewrite <- (npow_base _ _ _ _ _ _ WR). transitivity ((w ^^ (q ^ 12 - 1)) ^^ (l * (q ^ 2 + 1))).
  - rewrite <- Er, <- (npow_mul _ _ _ _ _ _ WR). replace (wmul (C w) w) with (w ^^ (q ^ 6 + 1)) by (rewrite (npow_add _ _ _ _ _ _ WR), (npow_1 _ _ _ _ _ _ WR); reflexivity). rewrite <- (npow_mul _ _ _ _ _ _ WR). f_equal.
    replace (q ^ 6 + 1)%N with ((q ^ 4 - q ^ 2 + 1) * (q ^ 2 + 1))%N; [rewrite <- El; ring|].
    assert (G : (q ^ 2 <= q ^ 4)%N) by (apply N.pow_le_mono_r; lia). replace (q ^ 6)%N with (q ^ 4 * q ^ 2)%N by (rewrite <- N.pow_add_r; reflexivity). replace (q ^ 4)%N with (q ^ 2 * q ^ 2)%N in * by (rewrite <- N.pow_add_r; reflexivity). clear - G. generalize dependent (q ^ 2)%N. intros z G. apply N2Z.inj. rewrite !N2Z.inj_mul, !N2Z.inj_add, N2Z.inj_sub, !N2Z.inj_mul by exact G. ring.
  - rewrite fermat12 by exact N. apply (npow_one _ _ _ _ _ _ WR).
Qed.
Lemma npow_n0 (x : w6) e : x <> w6_0 -> x ^^ e <> w6_0.
Proof.
  intros N. induction e as [|e IH] using N.peano_ind; [exact w6_1_n0|]. rewrite <- N.add_1_r, (npow_add _ _ _ _ _ _ WR), (npow_1 _ _ _ _ _ _ WR). now apply w6_no_zero_div.
Qed.
Lemma pm_n0 (y x : w6) : pm y x -> x <> w6_0 -> y <> w6_0.
Proof. intros [-> | ->] N; [exact N|]. intros E. apply N. transitivity (w6_opp (w6_opp x)); [ring|rewrite E; ring]. Qed.
End MillerAlg.
