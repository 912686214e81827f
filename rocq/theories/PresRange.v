(** The context invariant (Pres.v) is kept by every RangeChip operation. *)
From Coq Require Import ZArith Lia List Bool.
From Verif Require Import Field Spec Context ContextProofs Utils Gate Range RelGate Pres PresGate.
Import ListNotations.
Local Open Scope Z_scope.
Local Open Scope monad_scope.

Ltac pside := solve [assumption | sub | (cbn [In app]; repeat (rewrite in_app_iff; cbn [In]); intuition auto)].
Ltac pst := first [pprim
  | first [apply pres_mul | apply pres_mul_add | apply pres_add | apply pres_sub_ | apply pres_is_zero | apply pres_assert_bit | apply pres_constrain_equal
          | apply pres_assert_is_const | apply pres_lookup | apply pres_load_witness]; pside].
Ltac prun := repeat match goal with
  | |- pres _ (bind (lift _) _) _ => apply pres_lift_bind; intros ? ?
  | |- pres _ (bind (assert_ _) _) _ => apply pres_assert_bind; intros _
  | |- pres _ (bind _ _) _ => eapply pres_bind; [solve [pst]|intros ?; cbn [app]]
  end; try solve [pst].

Section PresRange.
Context {p : positive} (lb : nat).
Notation Fp := (F p).
Notation qc := (qcell p).
Notation AV := (AV p).
Notation O1 := (fun a : AV => [a]).
Notation O2 := (fun r : AV * AV => [fst r; snd r]).
Notation O0 := (fun _ => @nil AV).
Implicit Types (L : list AV) (a b c : qc).

Lemma pres_lookup_at L i : pres L (lookup_at i) O0.
Proof. unfold lookup_at. prun. Qed.
Lemma qavs_base_loop n : forall r : Fp, qavs (base_loop lb n r) = [].
Proof. induction n as [|n IH]; intros; [reflexivity|]. cbn [base_loop]. unfold qavs. cbn [flat_map qav app]. apply IH. Qed.
Lemma qavs_limb_bases : qavs (p:=p) (limb_bases lb) = [].
Proof. unfold limb_bases, qavs. cbn [flat_map qav app]. apply qavs_base_loop. Qed.
Lemma qavs_firstn n (l : list qc) : qavs l = [] -> qavs (firstn n l) = [].
Proof. revert n. induction l as [|x l IH]; intros [|n]; cbn; auto. intros H. apply app_eq_nil in H as [-> H]. cbn. apply IH, H. Qed.
Lemma qavs_slice n (l k : list qc) : slice_to n l = Some k -> qavs l = [] -> qavs k = [].
Proof. unfold slice_to. destruct (Nat.leb _ _); [|discriminate]. intros [= <-]. apply qavs_firstn. Qed.
Lemma pres__range_check L (x : AV) n : In x L -> pres L (_range_check lb x n) O1.
Proof.
  intros Hx. unfold _range_check. destruct (Nat.eqb n 0); [prun|]. prun. eapply (pres_bind _ _ _ O1).
  - destruct (Nat.eqb _ 1); [prun|]. prun.
    match goal with K : slice_to _ _ = Some _ |- _ => rename K into E end. eapply pres_bind.
    { apply pres_inner_product; [rewrite qavs_wit; intros ? []|]. rewrite (qavs_slice _ _ _ E qavs_limb_bases). intros ? []. }
    intros acc. cbn [app]. prun. eapply pres_bind; [apply pres_lookup_at|]. intros ?. cbn [app].
    eapply pres_bind; [apply pres_iterM; intros; apply pres_lookup_at|]. intros ?. cbn [app]. prun.
  - intros l. cbn [app]. eapply (pres_bind _ _ _ O0).
    + destruct (Nat.compare _ _); prun.
    + intros ?. cbn [app]. prun.
Qed.
Lemma pres_range_check L (x : AV) n : In x L -> pres L (range_check lb x n) O0.
Proof. intros. unfold range_check. eapply pres_bind; [now apply pres__range_check|]. intros ?. prun. Qed.
Ltac prc := repeat first [progress prun | (eapply pres_bind; [apply pres_range_check; pside|intros ?; cbn [app]]) | (apply pres_range_check; pside)].
Lemma pres_check_less_than L a b n : incl (qav a) L -> incl (qav b) L -> pres L (check_less_than lb a b n) O0.
Proof. intros. unfold check_less_than. prc. Qed.
Lemma pres_check_less_than_safe L (x : AV) (b : Z) : In x L -> pres L (check_less_than_safe lb x b) O0.
Proof. intros. unfold check_less_than_safe. prc. apply pres_check_less_than; pside. Qed.
Lemma pres_check_big_less_than_safe L (x : AV) (b : Z) : In x L -> pres L (check_big_less_than_safe lb x b) O0.
Proof. intros. unfold check_big_less_than_safe. prc. apply pres_check_less_than; pside. Qed.
Lemma pres_is_less_than L a b n : incl (qav a) L -> incl (qav b) L -> pres L (is_less_than lb a b n) O1.
Proof. intros. unfold is_less_than. prc. eapply pres_bind; [apply pres__range_check; pside|]. intros ?. cbn [app]. prun. Qed.
Lemma pres_is_less_than_safe L (x : AV) (b : Z) : In x L -> pres L (is_less_than_safe lb x b) O1.
Proof. intros. unfold is_less_than_safe. prc. apply pres_is_less_than; pside. Qed.
Lemma pres_is_big_less_than_safe L (x : AV) (b : Z) : In x L -> pres L (is_big_less_than_safe lb x b) O1.
Proof. intros. unfold is_big_less_than_safe. prc. apply pres_is_less_than; pside. Qed.
Ltac pbig := eapply pres_bind; [apply pres_check_big_less_than_safe; pside|]; intros ?; cbn [app].
Lemma pres_div_mod L a (b : Z) n : incl (qav a) L -> pres L (div_mod lb a b n) O2.
Proof. intros. unfold div_mod. prc. pbig. pbig. prun. Qed.
Lemma pres_div_mod_var L a b n m : incl (qav a) L -> incl (qav b) L -> pres L (div_mod_var lb a b n m) O2.
Proof.
  intros. unfold div_mod_var. prc. eapply (pres_bind _ _ _ O0). { destruct (Nat.leb _ _); prc. } intros ?. cbn [app]. prc.
  eapply pres_bind; [apply pres_div_mod; pside|]. intros h. cbn [app]. prc.
  eapply pres_bind; [apply pres_div_mod; pside|]. intros ahl. cbn [app]. prc.
  eapply pres_bind; [apply pres_check_less_than; pside|]. intros ?. cbn [app]. prc.
Qed.
Lemma pres_get_last_bit L (x : AV) n : In x L -> pres L (get_last_bit lb x n) O1.
Proof. intros. unfold get_last_bit. prc. Qed.
Lemma pres_decompose_le L (x : AV) (b n : nat) : In x L -> pres L (decompose_le lb x b n) (fun l => l).
Proof.
  intros. unfold decompose_le. prc. eapply pres_bind. { apply pres_inner_product_left; [rewrite qavs_wit0|rewrite qavs_const]; intros ? []. }
  intros r. cbv beta. prc. eapply pres_bind; [apply pres_iterM; intros; apply pres_range_check; pside|]. intros ?. cbn [app]. prun.
Qed.
Lemma pres_limbs_to_num L (l : list AV) (b : nat) : incl l L -> pres L (limbs_to_num l b) O1.
Proof. intros. unfold limbs_to_num. prc. apply pres_inner_product; [now rewrite qavs_existing|rewrite qavs_const; intros ? []]. Qed.
Lemma pres_rotate_internal L (x : AV) k n : In x L -> pres L (const_right_rotate_internal lb x k n) O1.
Proof. intros. unfold const_right_rotate_internal. prc. Qed.
Lemma pres_right_rotate L k n (x : AV) : In x L -> pres L (const_right_rotate lb k n x) O1.
Proof. intros. unfold const_right_rotate. prun. destruct (Nat.eqb _ 0); [prun|now apply pres_rotate_internal]. Qed.
Lemma pres_left_rotate L k n (x : AV) : In x L -> pres L (const_left_rotate lb k n x) O1.
Proof. intros. unfold const_left_rotate. prun. destruct (Nat.eqb _ 0); [prun|now apply pres_rotate_internal]. Qed.
End PresRange.
