(** Relational lemmas (see Rel.v) for every RangeChip operation. *)
From Coq Require Import ZArith Lia List Bool.
From Verif Require Import Field Spec Context ContextProofs Utils Gate Range Rel RelGate.
Import ListNotations.
Local Open Scope Z_scope.
Local Open Scope monad_scope.

Section RelRange.
Context {p : positive} (mode : bool) (lb : nat).
Notation Fp := (F p).
Notation qc := (qcell p).
Notation AV := (AV p).
Local Notation eqm := (eqm mode).
Local Notation avR := (@Rel.avR p mode).
Local Notation qR := (@Rel.qR p mode).
Local Notation optR := (optR mode).
Local Notation rel := (@Rel.rel p mode _ _).
Local Notation feR := (@Rel.feR p mode).
Local Notation ptR := (@ptR p mode).
Notation U := (fun _ _ => True).

Lemma rel_lookup_at i : rel (lookup_at i) (lookup_at i) U.
Proof. unfold lookup_at. eapply rel_bind; [apply rel_get|]. intros. now apply rel_lookup. Qed.
Lemma base_loop_const n : forall r, Forall (fun q : qc => match q with Constant _ => True | _ => False end) (base_loop lb n r).
Proof. induction n; intros; cbn; constructor; auto. Qed.
Lemma limb_bases_R n : optR (Forall2 qR) (slice_to n (limb_bases lb)) (slice_to n (limb_bases lb)).
Proof.
  intros l E. rewrite E. apply qR_refl_const. unfold slice_to in E. destruct (Nat.leb _ _); [|discriminate]. inversion E; subst.
  assert (Forall (fun q : qc => match q with Constant _ => True | _ => False end) (limb_bases lb)) as K.
  { repeat (constructor; [exact I|]). apply base_loop_const. }
  rewrite <- (firstn_skipn n) in K. apply Forall_app in K. apply K.
Qed.
Lemma rel__range_check a a' n : avR a a' -> rel (_range_check lb a n) (_range_check lb a' n) avR.
Proof.
  intros Ha. unfold _range_check. destruct (Nat.eqb n 0). { eapply rel_bind; [now apply rel_assert_is_const|]. intros. rl. }
  rl. eapply (rel_bind mode) with (R := avR).
  - destruct (Nat.eqb _ 1). { eapply rel_bind; [now apply rel_lookup|]. intros. rl. }
    eapply rel_bind; [rprim|]. intros v v' Hv. eapply rel_bind; [apply rel_dfu; auto|]. intros l l' Hl. rl.
    eapply rel_bind; [apply rel_lift, limb_bases_R|]. intros bs bs' Hbs. eapply rel_bind; [apply rel_inner_product; auto; now apply r_wits|]. intros acc acc' Hacc.
    eapply rel_bind; [apply rel_constrain_equal; auto|]. intros _ _ _. subst. eapply rel_bind; [apply rel_lookup_at|]. intros _ _ _. eapply rel_bind.
    { eapply rel_iterM; [apply (Forall2_refl eq); auto|]. intros ? ? <-. apply rel_lookup_at. }
    intros _ _ _. rl.
  - intros l l' Hl. eapply (rel_bind mode) with (R := U); [|intros; rl]. destruct (Nat.compare _ _).
    + now apply rel_assert_bit.
    + rl.
    + eapply rel_bind; [apply rel_lift_same|]. intros m ? <-. eapply rel_bind; [apply rel_mul; auto; reflexivity|]. intros. now apply rel_lookup.
Qed.
Lemma rel_range_check a a' n : avR a a' -> rel (range_check lb a n) (range_check lb a' n) U.
Proof. intros. unfold range_check. eapply rel_bind; [now apply rel__range_check|]. intros. rl. Qed.
Lemma rel_check_less_than a a' b b' n : qR a a' -> qR b b' -> rel (check_less_than lb a b n) (check_less_than lb a' b' n) U.
Proof.
  intros. unfold check_less_than. eapply rel_bind; [apply rel_lift_same|]. intros pw ? <-. rl. now apply rel_range_check.
Qed.
Lemma rel_check_less_than_safe a a' b : avR a a' -> rel (check_less_than_safe lb a b) (check_less_than_safe lb a' b) U.
Proof. intros. unfold check_less_than_safe. rl. eapply rel_bind; [now apply rel_range_check|]. intros. apply rel_check_less_than; auto. reflexivity. Qed.
Lemma rel_check_big_less_than_safe a a' b : avR a a' -> rel (check_big_less_than_safe lb a b) (check_big_less_than_safe lb a' b) U.
Proof.
  intros. unfold check_big_less_than_safe. rl. eapply rel_bind; [now apply rel_range_check|]. intros. eapply rel_bind; [apply rel_lift_same|]. intros fb ? <-.
  apply rel_check_less_than; auto. reflexivity.
Qed.
Lemma rel_is_less_than a a' b b' n : qR a a' -> qR b b' -> rel (is_less_than lb a b n) (is_less_than lb a' b' n) avR.
Proof.
  intros. unfold is_less_than. rl. eapply rel_bind; [apply rel_lift_same|]. intros pw ? <-. rl.
  eapply rel_bind; [now apply rel__range_check|]. intros. now apply rel_is_zero.
Qed.
Lemma rel_is_less_than_safe a a' b : avR a a' -> rel (is_less_than_safe lb a b) (is_less_than_safe lb a' b) avR.
Proof. intros. unfold is_less_than_safe. rl. eapply rel_bind; [now apply rel_range_check|]. intros. apply rel_is_less_than; auto. reflexivity. Qed.
Lemma rel_is_big_less_than_safe a a' b : avR a a' -> rel (is_big_less_than_safe lb a b) (is_big_less_than_safe lb a' b) avR.
Proof.
  intros. unfold is_big_less_than_safe. rl. eapply rel_bind; [now apply rel_range_check|]. intros. eapply rel_bind; [apply rel_lift_same|]. intros fb ? <-.
  apply rel_is_less_than; auto. reflexivity.
Qed.
Lemma rel_liftf {A B} (f : A -> option B) x x' : eqm x x' -> rel (lift (f x)) (lift (f x')) eqm.
Proof. apply rel_lift_eqm. Qed.
Lemma rel_assertf {A} (f : A -> bool) x x' : eqm x x' -> rel (assert_ (f x)) (assert_ (f x')) U.
Proof. intros. apply rel_assert. intros. unfold Rel.eqm in *. destruct mode; congruence. Qed.
Lemma rel_div_mod a a' b n : qR a a' -> rel (div_mod lb a b n) (div_mod lb a' b n) ptR.
Proof.
  intros. unfold div_mod. rl. eapply rel_bind; [apply (rel_liftf (fun x : Fp => biguint_to_fe (fe_to_biguint x / b))); exact H0|]. intros dv dv' Hdv.
  eapply rel_bind; [apply (rel_liftf (fun x : Fp => biguint_to_fe (fe_to_biguint x mod b))); exact H0|]. intros rm rm' Hrm.
  eapply rel_bind; [apply rel_lift_same|]. intros fb ? <-. rl.
  eapply rel_bind; [now apply rel_check_big_less_than_safe|]. intros. eapply rel_bind; [now apply rel_check_big_less_than_safe|]. intros. rl. split; auto.
Qed.
Lemma rel_div_mod_var a a' b b' n m : qR a a' -> qR b b' -> rel (div_mod_var lb a b n m) (div_mod_var lb a' b' n m) ptR.
Proof.
  intros. unfold div_mod_var. rl. pose proof (eqm_f2 mode (@pair Fp Fp) _ _ _ _ H1 H2) as HP.
  eapply rel_bind; [apply (rel_assertf (fun x : Fp => 0 <? fe_to_biguint x)); exact H2|]. intros _ _ _.
  eapply rel_bind; [apply rel_lift_same|]. intros xf ? <-.
  eapply rel_bind; [apply (rel_liftf (fun xy : Fp * Fp => biguint_to_fe (fe_to_biguint (fst xy) / fe_to_biguint (snd xy))) _ _ HP)|]. intros.
  eapply rel_bind; [apply (rel_liftf (fun xy : Fp * Fp => biguint_to_fe (fe_to_biguint (fst xy) / fe_to_biguint (snd xy) / 2 ^ Z.of_nat m)) _ _ HP)|]. intros.
  eapply rel_bind; [apply (rel_liftf (fun xy : Fp * Fp => biguint_to_fe ((fe_to_biguint (fst xy) / fe_to_biguint (snd xy)) mod 2 ^ Z.of_nat m)) _ _ HP)|]. intros.
  eapply rel_bind; [apply (rel_liftf (fun xy : Fp * Fp => biguint_to_fe (fe_to_biguint (fst xy) mod fe_to_biguint (snd xy))) _ _ HP)|]. intros.
  rl. eapply rel_bind; [now apply rel_range_check|]. intros. eapply (rel_bind mode) with (R := U).
  { destruct (Nat.leb _ _); [now apply rel_assert_is_const|now apply rel_range_check]. }
  intros. eapply rel_bind; [apply rel_mul_add; auto|]. intros. eapply rel_bind; [apply rel_div_mod; auto|]. intros ? ? [? ?].
  eapply rel_bind; [apply rel_mul_add; auto|]. intros. eapply rel_bind; [apply rel_div_mod; auto|]. intros ? ? [? ?].
  eapply rel_bind; [apply rel_constrain_equal; auto|]. intros. eapply rel_bind; [apply rel_constrain_equal; auto|]. intros.
  eapply rel_bind; [now apply rel_range_check|]. intros. eapply rel_bind; [apply rel_check_less_than; auto|]. intros. rl. split; auto.
Qed.
Lemma rel_get_last_bit a a' n : avR a a' -> rel (get_last_bit lb a n) (get_last_bit lb a' n) avR.
Proof.
  intros. unfold get_last_bit. rl. eapply rel_bind; [now apply rel_range_check|]. intros. eapply rel_bind; [now apply rel_assert_bit|]. intros. rl.
Qed.
Lemma dbig_len n b : forall d r e, length (dbig_loop n b d r e) = n.
Proof.
  induction n as [|n IH]; intros; cbn [dbig_loop]; auto. destruct (next_or0 e). destruct (Nat.leb _ _); [destruct (next_or0 _)|]; cbn [length]; rewrite IH; auto.
Qed.
Lemma dec_len (x y : Fp) n b l l' : decompose x n b = Some l -> decompose y n b = Some l' -> length l = length l'.
Proof.
  unfold decompose. destruct (Nat.ltb 64 b).
  - unfold decompose_biguint, decompose_biguint_limbs. destruct (_ && _); [|discriminate].
    repeat (destruct (next_or0 _)). cbn [option_map map]. intros E1 E2. inversion E1. inversion E2. cbn [length]. now rewrite !map_length, !dbig_len.
  - destruct (decompose_fe_to_u64_limbs x n b) eqn:E1; [|discriminate]. destruct (decompose_fe_to_u64_limbs y n b) eqn:E2; [|discriminate].
    intros [= <-] [= <-]. rewrite !map_length. now rewrite (dfu_len _ _ _ _ E1), (dfu_len _ _ _ _ E2).
Qed.
Lemma rel_decompose x x' n b : eqm x x' -> rel (lift (decompose (p:=p) x n b)) (lift (decompose x' n b)) (Forall2 eqm).
Proof.
  intros H. apply rel_lift. apply (optR_f mode (fun x => decompose x n b)); auto. apply Forall2_eqm_refl.
  intros Hm l l' E E'. apply Forall2_len_eqm; auto. eapply dec_len; eauto.
Qed.
Lemma r_fwits (l l' : list Fp) : Forall2 eqm l l' -> Forall2 qR (map Witness l) (map Witness l').
Proof. intros. eapply Forall2_map_l; [exact H|]. auto. Qed.
Lemma rel_decompose_le a a' b n : avR a a' -> rel (decompose_le lb a b n) (decompose_le lb a' b n) (Forall2 avR).
Proof.
  intros. unfold decompose_le. eapply rel_bind; [apply rel_lift_same|]. intros pw ? <-. rl. eapply rel_bind; [apply rel_decompose; eauto|]. intros l l' Hl.
  eapply rel_bind; [apply rel_inner_product_left; [now apply r_fwits|apply r_consts]|]. intros r r' [Hr Hr'].
  eapply rel_bind; [apply rel_constrain_equal; auto|]. intros. eapply rel_bind; [eapply rel_iterM; [exact Hr'|]; intros; now apply rel_range_check|]. intros. rl.
Qed.
Lemma rel_limbs_to_num a a' b : Forall2 avR a a' -> rel (limbs_to_num a b) (limbs_to_num a' b) avR.
Proof.
  intros Ha. unfold limbs_to_num. rewrite <- (Forall2_len _ _ _ Ha). eapply rel_bind; [apply rel_lift_same|]. intros pw ? <-.
  apply rel_inner_product; [now apply r_existings|apply r_consts].
Qed.
Lemma rel_rotate_internal a a' k n : avR a a' -> rel (const_right_rotate_internal lb a k n) (const_right_rotate_internal lb a' k n) avR.
Proof.
  intros. unfold const_right_rotate_internal. rl.
  eapply rel_bind; [apply (rel_assertf (fun x : Fp => Nat.leb (bits (fe_to_biguint x)) n)); eassumption|]. intros _ _ _.
  eapply rel_bind; [apply (rel_liftf (fun x : Fp => biguint_to_fe (fe_to_biguint x mod 2 ^ Z.of_nat k))); eassumption|]. intros.
  eapply rel_bind; [apply rel_load_witness; auto|]. intros.
  eapply rel_bind; [apply (rel_liftf (fun x : Fp => biguint_to_fe (fe_to_biguint x / 2 ^ Z.of_nat k))); eassumption|]. intros.
  eapply rel_bind; [apply rel_load_witness; auto|]. intros.
  eapply rel_bind; [apply rel_lift_same|]. intros pw ? <-. eapply rel_bind; [apply rel_mul_add; auto; reflexivity|]. intros. rl.
  eapply rel_bind; [now apply rel_range_check|]. intros. eapply rel_bind; [now apply rel_range_check|]. intros.
  eapply rel_bind; [now apply rel_constrain_equal|]. intros. eapply rel_bind; [apply rel_lift_same|]. intros pw2 ? <-. apply rel_mul_add; auto; reflexivity.
Qed.
Lemma rel_right_rotate k n a a' : avR a a' -> rel (const_right_rotate lb k n a) (const_right_rotate lb k n a') avR.
Proof. intros. unfold const_right_rotate. rl. destruct (Nat.eqb _ 0); [rl|now apply rel_rotate_internal]. Qed.
Lemma rel_left_rotate k n a a' : avR a a' -> rel (const_left_rotate lb k n a) (const_left_rotate lb k n a') avR.
Proof. intros. unfold const_left_rotate. rl. destruct (Nat.eqb _ 0); [rl|now apply rel_rotate_internal]. Qed.
End RelRange.
