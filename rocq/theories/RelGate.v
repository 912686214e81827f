(** Relational lemmas (see Rel.v) for every GateChip and RangeChip operation. *)
From Coq Require Import ZArith Lia List Bool.
From Verif Require Import Field Spec Context ContextProofs Utils Gate Range Rel.
Import ListNotations.
Local Open Scope Z_scope.
Local Open Scope monad_scope.

Create HintDb rel.
#[global] Hint Resolve rel_get rel_last rel_len rel_load_witness rel_load_constant rel_load_constants rel_load_zero rel_lookup rel_assert_is_const
  rel_constrain_equal rel_region rel_region_last rel_smart eqm_refl rel_panic : rel.

Ltac req := unfold feR in *; unfold Rel.eqm in *; match goal with m : bool |- _ => destruct m; [subst; reflexivity|exact I] end.
Ltac rqs := repeat (apply Forall2_cons || apply Forall2_nil); cbn [qR]; auto with rel; try reflexivity; try req.
Ltac rprim := match goal with
  | |- rel _ (ret _) (ret _) _ => apply rel_ret; auto
  | |- rel _ (lift (q_value _)) _ _ => apply rel_lift, r_q_value; eassumption
  | |- rel _ (lift (av_value _)) _ _ => apply rel_lift, r_av_value; eassumption
  | |- rel _ (assert_ ?c) (assert_ ?c) _ => apply rel_assert; intros ->; apply eqm_refl
  | |- rel _ (assign_region _ _) _ _ => apply rel_region; rqs
  | |- rel _ (assign_region_last _ _) _ _ => apply rel_region_last; rqs
  | |- rel _ (assign_region_smart _ _ _) _ _ => apply rel_smart; rqs
  | |- rel _ (ctx_get _) _ _ => apply rel_get
  | |- rel _ ctx_last _ _ => apply rel_last
  | |- rel _ ctx_len _ _ => apply rel_len
  end.
Ltac rl := repeat match goal with
  | |- rel _ (bind _ _) (bind _ _) _ => eapply rel_bind; [solve [rprim]|intros ? ? ?]
  end; try rprim.

Section RelGate.
Context {p : positive} (mode : bool).
Notation Fp := (F p).
Notation qc := (qcell p).
Notation AV := (AV p).
Local Notation eqm := (eqm mode).
Local Notation avR := (@Rel.avR p mode).
Local Notation qR := (@Rel.qR p mode).
Local Notation optR := (optR mode).
Local Notation stR := (@Rel.stR p mode).
Local Notation rel := (@Rel.rel p mode _ _).
Local Notation feR := (@Rel.feR p mode).

Lemma rel_add a a' b b' : qR a a' -> qR b b' -> rel (add a b) (add a' b') avR.
Proof. intros. unfold add. rl. Qed.
Lemma rel_sub a a' b b' : qR a a' -> qR b b' -> rel (sub a b) (sub a' b') avR.
Proof. intros. unfold sub. rl. Qed.
Lemma rel_sub_mul a a' b b' c c' : qR a a' -> qR b b' -> qR c c' -> rel (sub_mul a b c) (sub_mul a' b' c') avR.
Proof. intros. unfold sub_mul. rl. Qed.
Lemma rel_neg a a' : qR a a' -> rel (neg a) (neg a') avR.
Proof. intros. unfold neg. rl. Qed.
Lemma rel_mul a a' b b' : qR a a' -> qR b b' -> rel (mul a b) (mul a' b') avR.
Proof. intros. unfold mul. rl. Qed.
Lemma rel_mul_add a a' b b' c c' : qR a a' -> qR b b' -> qR c c' -> rel (mul_add a b c) (mul_add a' b' c') avR.
Proof. intros. unfold mul_add. rl. Qed.
Lemma rel_mul_not a a' b b' : qR a a' -> qR b b' -> rel (mul_not a b) (mul_not a' b') avR.
Proof. intros. unfold mul_not. rl. Qed.
Lemma rel_assert_bit a a' : avR a a' -> rel (assert_bit a) (assert_bit a') (fun _ _ => True).
Proof. intros. unfold assert_bit. rl. Qed.
Lemma rel_lift_eqm {A B} (f : A -> option B) x x' : eqm x x' -> rel (lift (f x)) (lift (f x')) eqm.
Proof. intros H. apply rel_lift. apply optR_f; auto with rel. intros ->; exact (fun _ _ _ _ => I). Qed.
Lemma rel_div_unsafe a a' b b' : qR a a' -> qR b b' -> rel (div_unsafe a b) (div_unsafe a' b') avR.
Proof. intros. unfold div_unsafe. eapply rel_bind; [apply rel_lift, r_q_value; eassumption|]. intros. eapply rel_bind; [apply rel_lift_eqm; eassumption|]. intros. rl. Qed.
Lemma rel_or a a' b b' : qR a a' -> qR b b' -> rel (or a b) (or a' b') avR.
Proof. intros. unfold or. rl. Qed.
Lemma rel_xor a a' b b' : qR a a' -> qR b b' -> rel (xor a b) (xor a' b') avR.
Proof. intros. unfold xor. rl. Qed.
Lemma rel_select a a' b b' c c' : qR a a' -> qR b b' -> qR c c' -> rel (select a b c) (select a' b' c') avR.
Proof. intros. unfold select. rl. Qed.
Lemma rel_or_and a a' b b' c c' : qR a a' -> qR b b' -> qR c c' -> rel (or_and a b c) (or_and a' b' c') avR.
Proof. intros. unfold or_and. rl. Qed.

Lemma Forall2_refl {A} (R : A -> A -> Prop) l : (forall x, R x x) -> Forall2 R l l.
Proof. intros. induction l; constructor; auto. Qed.
Lemma Forall2_combine {A B C D} (R : A -> B -> Prop) (S : C -> D -> Prop) l1 l2 : Forall2 R l1 l2 -> forall k1 k2, Forall2 S k1 k2 ->
  Forall2 (fun x y => R (fst x) (fst y) /\ S (snd x) (snd y)) (combine l1 k1) (combine l2 k2).
Proof. induction 1; intros ? ? [|]; cbn; constructor; auto. Qed.
Lemma Forall2_rev {A B} (R : A -> B -> Prop) l1 l2 : Forall2 R l1 l2 -> Forall2 R (rev l1) (rev l2).
Proof. induction 1; cbn; [constructor|]. apply Forall2_app; auto. Qed.
Lemma Forall2_nth {A B} (R : A -> B -> Prop) l1 l2 i x : Forall2 R l1 l2 -> nth_error l1 i = Some x -> exists y, nth_error l2 i = Some y /\ R x y.
Proof. intros HF. revert i. induction HF; intros [|i] E; cbn in *; try discriminate; eauto. inversion E; subst; eauto. Qed.
Lemma Forall2_skipn {A B} (R : A -> B -> Prop) n : forall l1 l2, Forall2 R l1 l2 -> Forall2 R (skipn n l1) (skipn n l2).
Proof. induction n; intros ? ? HF; cbn; auto. destruct HF; auto. Qed.
Lemma Forall2_map_l {A B C D} (R : C -> D -> Prop) (f : A -> C) (g : B -> D) (S : A -> B -> Prop) l1 l2 :
  Forall2 S l1 l2 -> (forall x y, S x y -> R (f x) (g y)) -> Forall2 R (map f l1) (map g l2).
Proof. induction 1; cbn; constructor; auto. Qed.
Lemma optR_map {A B C D} (R : A -> B -> Prop) (S : C -> D -> Prop) (f : A -> C) (g : B -> D) o1 o2 :
  optR R o1 o2 -> (forall x y, R x y -> S (f x) (g y)) -> optR S (option_map f o1) (option_map g o2).
Proof.
  intros H HS c E. destruct o1 as [a|]; [|discriminate]. specialize (H a eq_refl). inversion E; subst. destruct o2; cbn; auto.
Qed.
Lemma optR_none {A B} (R : A -> B -> Prop) o : optR R None o.
Proof. intros a [=]. Qed.

Lemma r_sum_cells l1 l2 : Forall2 qR l1 l2 -> forall s1 s2, eqm s1 s2 -> optR (Forall2 qR) (sum_cells s1 l1) (sum_cells s2 l2).
Proof.
  induction 1 as [|x y l1 l2 Hxy HF IH]; intros s1 s2 Hs; cbn [sum_cells].
  - intros a [= <-]. constructor.
  - intros a E. pose proof (r_q_value _ _ _ Hxy) as HV. destruct (q_value x) as [v|]; [|discriminate]. specialize (HV v eq_refl).
    destruct (q_value y) as [w|]; auto. revert a E. assert (K : eqm (s1 + v)%F (s2 + w)%F) by req.
    apply (optR_map (Forall2 qR)); [auto|intros; rqs].
Qed.
Lemma rel_sum l1 l2 : Forall2 qR l1 l2 -> rel (sum l1) (sum l2) avR.
Proof.
  intros HF. destruct HF as [|x y l1 l2 Hxy HF]; cbn [sum]; auto with rel. destruct HF as [|x' y' l1 l2 Hxy' HF]; [rl|].
  eapply rel_bind; [apply rel_lift, r_q_value; eauto|]. intros. eapply rel_bind; [apply rel_lift; apply r_sum_cells; [now constructor|auto]|].
  intros. cbn [length]. rewrite (Forall2_len _ _ _ HF). apply rel_region_last. now constructor.
Qed.
Lemma rel_partial_sums l1 l2 : Forall2 qR l1 l2 -> rel (partial_sums l1) (partial_sums l2) (Forall2 avR).
Proof.
  intros HF. destruct HF as [|x y l1 l2 Hxy HF]; cbn [partial_sums]. { eapply rel_bind; [auto with rel|]. intros. rl; auto. }
  destruct HF as [|x' y' l1 l2 Hxy' HF]; [rl; auto|].
  eapply rel_bind; [apply rel_lift, r_q_value; eauto|]. intros. eapply rel_bind; [apply rel_lift; apply r_sum_cells; [now constructor|auto]|].
  intros. cbn [length]. rewrite (Forall2_len _ _ _ HF). eapply rel_bind; [apply rel_region; now constructor|]. intros _ _ _.
  eapply rel_mapM; [apply (Forall2_refl eq); auto|]. intros ? ? <-. rl.
Qed.
Lemma rel_acc_prod l1 l2 : Forall2 (fun x y => qR (fst x) (fst y) /\ qR (snd x) (snd y)) l1 l2 -> forall x y, avR x y ->
  rel (acc_prod x l1) (acc_prod y l2) (Forall2 avR).
Proof.
  induction 1 as [|[a b] [a' b'] l1 l2 [H1 H2] HF IH]; intros x y Hxy; cbn [acc_prod]; [rl; auto|]. cbn [fst snd] in *.
  eapply rel_bind; [apply rel_mul_add; auto|]. intros. eapply rel_bind; [apply IH; auto|]. intros. rl; auto.
Qed.
Lemma rel_accumulated_product a a' b b' : Forall2 qR a a' -> Forall2 qR b b' -> rel (accumulated_product a b) (accumulated_product a' b') (Forall2 avR).
Proof.
  intros Ha Hb. unfold accumulated_product. destruct Hb; [rl; auto|]. eapply rel_bind; [apply rel_region_last; rqs|]. intros. eapply rel_bind; [apply rel_acc_prod; auto; now apply Forall2_combine|]. intros. rl; constructor; auto.
Qed.

Lemma r_ip_cells l1 l2 : Forall2 (fun x y => qR (fst x) (fst y) /\ qR (snd x) (snd y)) l1 l2 -> forall s1 s2, eqm s1 s2 ->
  optR (Forall2 qR) (ip_cells s1 l1) (ip_cells s2 l2).
Proof.
  induction 1 as [|[x1 x2] [y1 y2] l1 l2 [H1 H2] HF IH]; intros s1 s2 Hs; cbn [ip_cells fst snd] in *.
  - intros a [= <-]. constructor.
  - intros a E. pose proof (r_q_value _ _ _ H1) as HV1. pose proof (r_q_value _ _ _ H2) as HV2. destruct (q_value x1) as [v|]; [|discriminate].
    destruct (q_value x2) as [v2|]; [|discriminate]. specialize (HV1 v eq_refl). specialize (HV2 v2 eq_refl).
    destruct (q_value y1) as [w|]; auto. destruct (q_value y2) as [w2|]; auto. revert a E.
    assert (K : eqm (s1 + v * v2)%F (s2 + w * w2)%F) by req.
    apply (optR_map (Forall2 qR)); [auto|intros; rqs].
Qed.
Lemma r_starts b b' : Forall2 qR b b' -> starts_with_one b = starts_with_one b'.
Proof. intros HF. destruct HF as [|x y ? ? H]; auto. destruct x, y; cbn in *; try contradiction; auto. now subst. Qed.
Lemma r_ip_region a a' b b' : Forall2 qR a a' -> Forall2 qR b b' -> optR (Forall2 qR) (ip_region a b) (ip_region a' b').
Proof.
  intros Ha Hb. unfold ip_region. rewrite <- (r_starts _ _ Hb). destruct (starts_with_one b).
  - destruct Ha as [|x y l l' Hxy Ha]; [apply optR_none|]. pose proof (r_q_value _ _ _ Hxy) as HV.
    destruct (q_value x) as [v|]; [|apply optR_none]. specialize (HV v eq_refl). destruct (q_value y) as [w|]; [|intros ? ?; auto].
    apply (optR_map (Forall2 qR)); [|intros; now constructor]. apply r_ip_cells; auto. apply Forall2_combine; auto. destruct Hb; cbn; auto.
  - apply (optR_map (Forall2 qR)); [|intros; now constructor]. apply r_ip_cells; auto with rel. now apply Forall2_combine.
Qed.
Lemma rel_ip_simple a a' b b' : Forall2 qR a a' -> Forall2 qR b b' ->
  rel (inner_product_simple a b) (inner_product_simple a' b') (fun x y => x = y /\ x = starts_with_one b).
Proof.
  intros Ha Hb. unfold inner_product_simple. eapply rel_bind; [apply rel_lift; apply r_ip_region; eauto|]. intros c c' Hc.
  rewrite <- (r_starts _ _ Hb), <- (Forall2_len _ _ _ Hc).
  intros s1 s2 Hs [x s1'] E. pose proof (rel_region mode c c' (offs3 (length c / 3)) Hc s1 s2 Hs) as K. 
  unfold bind, ctx_wgo in *. rewrite (r_wgo1 _ _ Hs) in E. rewrite (r_wgo2 _ _ Hs). 
  destruct (assign_region c (offs3 (length c / 3)) s1) as [[[] s3]|] eqn:E1; [|discriminate]. specialize (K _ eq_refl). inversion E; subst; clear E.
  destruct mode eqn:Em.
  - assert (Q : assign_region c' [] s2 = assign_region c' (offs3 (length c / 3)) s2). 
    { unfold assign_region, bind, ctx_wgo. rewrite (r_wgo2 _ _ Hs). reflexivity. }
    rewrite Q. destruct (assign_region c' (offs3 (length c / 3)) s2) as [[[] s4]|]; [|discriminate]. cbn in *. destruct K. auto.
  - destruct (assign_region c' (offs3 (length c / 3)) s2) as [[[] s4]|]; auto. cbn in *. destruct K. auto.
Qed.
Lemma rel_inner_product a a' b b' : Forall2 qR a a' -> Forall2 qR b b' -> rel (inner_product a b) (inner_product a' b') avR.
Proof. intros. unfold inner_product. eapply rel_bind; [now apply rel_ip_simple|]. intros. rl. Qed.
Lemma rel_inner_product_left_last a a' b b' : Forall2 qR a a' -> Forall2 qR b b' ->
  rel (inner_product_left_last a b) (inner_product_left_last a' b') (fun x y => avR (fst x) (fst y) /\ avR (snd x) (snd y)).
Proof.
  intros Ha Hb. unfold inner_product_left_last. rewrite <- (Forall2_len _ _ _ Ha). eapply rel_bind; [apply rel_len|]. intros row ? <-.
  eapply rel_bind; [now apply rel_ip_simple|]. intros one ? [<- ->]. eapply rel_bind.
  - destruct (starts_with_one b); [destruct (Nat.eqb _ 1); [apply rel_get|]|]; rl.
  - intros. rl; auto.
Qed.
Lemma rel_inner_product_left a a' b b' : Forall2 qR a a' -> Forall2 qR b b' ->
  rel (inner_product_left a b) (inner_product_left a' b') (fun x y => avR (fst x) (fst y) /\ Forall2 avR (snd x) (snd y)).
Proof.
  intros Ha Hb. unfold inner_product_left. rewrite <- (Forall2_len _ _ _ Ha). eapply rel_bind; [apply rel_len|]. intros row ? <-.
  eapply rel_bind; [now apply rel_ip_simple|]. intros one ? [<- ->]. eapply rel_bind.
  - eapply rel_mapM; [apply (Forall2_refl eq); auto|]. intros ? ? <-. destruct (starts_with_one b); [destruct (Nat.eqb _ 0)|]; apply rel_get.
  - intros. rl; auto.
Qed.
Lemma rel_inner_product_with_sums a a' b b' : Forall2 qR a a' -> Forall2 qR b b' ->
  rel (inner_product_with_sums a b) (inner_product_with_sums a' b') (Forall2 avR).
Proof.
  intros Ha Hb. unfold inner_product_with_sums. eapply rel_bind; [apply rel_len|]. intros row ? <-.
  eapply rel_bind; [now apply rel_ip_simple|]. intros one ? [<- ->]. eapply rel_bind; [apply rel_len|]. intros len ? <-.
  eapply rel_mapM; [apply (Forall2_refl eq); auto|]. intros ? ? <-. apply rel_get.
Qed.
Definition spcR (x y : Fp * qc * qc) : Prop := fst (fst x) = fst (fst y) /\ qR (snd (fst x)) (snd (fst y)) /\ qR (snd x) (snd y).
Lemma rel_spc_terms l1 l2 : Forall2 spcR l1 l2 -> rel (spc_terms l1) (spc_terms l2) (Forall2 (fun x y => qR (fst x) (fst y) /\ qR (snd x) (snd y))).
Proof.
  induction 1 as [|[[c a] b] [[c' a'] b'] l1 l2 [H1 [H2 H3]] HF IH]; cbn [spc_terms]; [rl; auto|]. cbn [fst snd] in *. subst c'.
  destruct (Feqb c F1). { eapply rel_bind; [exact IH|]. intros. rl; constructor; auto. }
  destruct (Feqb c F0); cbn [negb]; auto. eapply rel_bind; [apply rel_mul; auto|]. intros. eapply rel_bind; [exact IH|]. intros. rl; constructor; cbn; auto.
Qed.
Lemma rel_sum_products l1 l2 v v' : Forall2 spcR l1 l2 -> qR v v' -> rel (sum_products_with_coeff_and_var l1 v) (sum_products_with_coeff_and_var l2 v') avR.
Proof.
  intros HF Hv. unfold sum_products_with_coeff_and_var. eapply rel_bind; [now apply rel_spc_terms|]. intros k k' HK. apply rel_inner_product; constructor; auto.
  - eapply Forall2_map_l; [exact HK|]. intros ? ? [? ?]; auto.
  - reflexivity.
  - eapply Forall2_map_l; [exact HK|]. intros ? ? [? ?]; auto.
Qed.

Lemma r_is_zero_wit x y : eqm x y -> eqm (is_zero_wit (p:=p) x) (is_zero_wit y).
Proof. intros. now apply eqm_f. Qed.
Lemma rel_is_zero a a' : avR a a' -> rel (is_zero a) (is_zero a') avR.
Proof.
  intros. unfold is_zero. rl. pose proof (r_is_zero_wit _ _ H0) as K. destruct (is_zero_wit a0) as [z i], (is_zero_wit b) as [z' i'].
  assert (eqm z z') by (unfold Rel.eqm in *; destruct mode; congruence). assert (eqm i i') by (unfold Rel.eqm in *; destruct mode; congruence). rl.
Qed.
Lemma rel_is_equal a a' b b' : qR a a' -> qR b b' -> rel (is_equal a b) (is_equal a' b') avR.
Proof. intros. unfold is_equal. eapply rel_bind; [now apply rel_sub|]. intros. now apply rel_is_zero. Qed.

Lemma rel_lift_nth {A B} (R : A -> B -> Prop) l1 l2 i : Forall2 R l1 l2 -> rel (lift (nth_error l1 i)) (lift (nth_error l2 i)) R.
Proof. intros. apply rel_lift. intros x E. destruct (Forall2_nth _ _ _ _ _ H E) as (y & -> & ?). auto. Qed.
Lemma rel_bti_step b b' off i l l' : avR b b' -> Forall2 avR l l' -> rel (bti_step b off l i) (bti_step b' off l' i) (Forall2 avR).
Proof.
  intros Hb HF. unfold bti_step. eapply rel_bind; [now apply (rel_lift_nth avR)|]. intros x x' Hx. rl.
  eapply rel_bind; [apply (rel_lift_nth avR); apply Forall2_app; auto|]. intros. eapply rel_bind; [apply rel_mul; auto|]. intros. rl.
  repeat apply Forall2_app; auto.
Qed.
Lemma rel_bits_to_indicator b b' : Forall2 avR b b' -> rel (bits_to_indicator b) (bits_to_indicator b') (Forall2 avR).
Proof.
  intros HF. unfold bits_to_indicator. pose proof (Forall2_rev _ _ _ HF) as HR. rewrite <- (Forall2_len _ _ _ HF). destruct HR as [|x y l l' Hxy HR]; [apply rel_panic|].
  rl. eapply rel_bind.
  - eapply (rel_foldM mode _ _ (fun u v => fst u = fst v /\ avR (snd u) (snd v)) (fun u v => Forall2 avR (fst u) (fst v) /\ snd u = snd v)).
    + rewrite <- (Forall2_len _ _ _ HR). apply Forall2_combine; auto. apply Forall2_refl; auto.
    + intros [i o] [i' o'] [k v] [k' v'] [H1' E1] [E2 H2']. cbn [fst snd] in *. subst o' k'. unfold bti_round. cbn [fst snd].
      eapply rel_bind. { apply (rel_foldM mode _ _ eq (Forall2 avR)); auto. apply Forall2_refl; auto. intros ? ? ? ? ? <-. now apply rel_bti_step. }
      intros. rl; auto.
    + cbn. auto.
  - intros [i o] [i' o'] [H1' E1]. cbn [fst snd] in *. rewrite <- (Forall2_len _ _ _ H1'). rl. now apply Forall2_skipn.
Qed.
Lemma rel_idx_to_indicator a a' n : qR a a' -> rel (idx_to_indicator a n) (idx_to_indicator a' n) (Forall2 avR).
Proof.
  intros Ha. unfold idx_to_indicator. destruct n; [rl; auto|]. rl. pose proof (r_is_zero_wit _ _ H) as K. destruct (is_zero_wit a0) as [z i], (is_zero_wit b) as [z' i'].
  assert (eqm z z') by (unfold Rel.eqm in *; destruct mode; congruence). assert (eqm i i') by (unfold Rel.eqm in *; destruct mode; congruence). rl. eapply rel_bind.
  - eapply rel_mapM; [apply (Forall2_refl eq); auto|]. intros ? ? <-. apply rel_is_equal; auto. reflexivity.
  - intros. rl.
Qed.
Lemma r_sbi_cells l1 l2 : Forall2 (fun x y => qR (fst x) (fst y) /\ avR (snd x) (snd y)) l1 l2 -> forall s1 s2, eqm s1 s2 ->
  optR (Forall2 qR) (sbi_cells s1 l1) (sbi_cells s2 l2).
Proof.
  induction 1 as [|[x1 x2] [y1 y2] l1 l2 [H1 H2] HF IH]; intros s1 s2 Hs; cbn [sbi_cells fst snd] in *.
  - intros a [= <-]. constructor.
  - intros a E. pose proof (r_av_value _ _ _ H2) as HV. destruct (av_value x2) as [i|]; [|discriminate]. specialize (HV i eq_refl). destruct (av_value y2) as [j|]; auto.
    assert (K : optR feR (if Fis0 i then Some s1 else q_value x1) (if Fis0 j then Some s2 else q_value y1)).
    { pose proof (r_q_value _ _ _ H1) as HV1. unfold Rel.feR, Rel.eqm, Rel.optR in *. destruct mode.
      - subst. destruct (Fis0 j); auto. intros ? [= <-]; auto.
      - intros. destruct (Fis0 j); auto. destruct (q_value y1); auto. }
    destruct (if Fis0 i then Some s1 else q_value x1) as [v|]; [|discriminate]. specialize (K v eq_refl). destruct (if Fis0 j then Some s2 else q_value y1) as [w|]; auto.
    revert a E. apply (optR_map (Forall2 qR)); [auto|intros; rqs].
Qed.
Lemma rel_select_by_indicator a a' i i' : Forall2 qR a a' -> Forall2 avR i i' -> rel (select_by_indicator a i) (select_by_indicator a' i') avR.
Proof.
  intros Ha Hi. unfold select_by_indicator. rewrite <- (Forall2_len _ _ _ Ha). eapply rel_bind. { apply rel_lift. apply r_sbi_cells; [now apply Forall2_combine|apply eqm_refl]. }
  intros. apply rel_region_last. now constructor.
Qed.
Lemma rel_select_from_idx a a' i i' : Forall2 qR a a' -> qR i i' -> rel (select_from_idx a i) (select_from_idx a' i') avR.
Proof.
  intros Ha Hi. unfold select_from_idx. rewrite <- (Forall2_len _ _ _ Ha). eapply rel_bind; [now apply rel_idx_to_indicator|]. intros. now apply rel_select_by_indicator.
Qed.
Lemma r_column {A B} (R : A -> B -> Prop) j m m' : Forall2 (Forall2 R) m m' -> optR (Forall2 R) (column j m) (column j m').
Proof.
  induction 1 as [|r r' m m' Hr HF IH]; cbn [column fold_right]; [intros a [= <-]; constructor|]. fold (column j m). fold (column j m').
  intros a E. destruct (nth_error r j) as [x|] eqn:Ex; [|discriminate]. destruct (Forall2_nth _ _ _ _ _ Hr Ex) as (y & -> & Hy).
  destruct (column j m) as [l|]; [|discriminate]. specialize (IH l eq_refl). destruct (column j m'); auto. inversion E; subst. constructor; auto.
Qed.
Lemma rel_select_array a a' i i' : Forall2 (Forall2 avR) a a' -> Forall2 avR i i' -> rel (select_array_by_indicator a i) (select_array_by_indicator a' i') (Forall2 avR).
Proof.
  intros Ha Hi. unfold select_array_by_indicator. pose proof (fun j => r_column avR j a a' Ha) as HC. destruct Ha as [|r r' ? ? Hr Ha]; [apply rel_panic|].
  rewrite <- (Forall2_len _ _ _ Hr). eapply rel_mapM; [apply (Forall2_refl eq); auto|]. intros j ? <-. eapply rel_bind; [apply rel_lift; apply HC|].
  intros c c' Hc. apply rel_select_by_indicator; auto. eapply Forall2_map_l; [exact Hc|]. auto.
Qed.

Lemma Forall2_len_eqm {A} (l l' : list A) : length l = length l' -> mode = false -> Forall2 eqm l l'.
Proof. intros H Hm. unfold Rel.eqm. rewrite Hm. revert l' H. induction l; destruct l'; cbn; intros; try discriminate; constructor; auto. Qed.
Lemma Forall2_eqm_refl {A} (l : list A) : Forall2 eqm l l.
Proof. apply Forall2_refl. intros. apply eqm_refl. Qed.
Lemma du64_len n b : forall d r e, length (du64_loop n b d r e) = n.
Proof.
  induction n as [|n IH]; intros; cbn [du64_loop]; auto. destruct (Nat.compare r b); try (destruct (next_or0 e)); cbn [length]; rewrite ?IH; auto.
Qed.
Lemma dfu_len (e : Fp) n b l : decompose_fe_to_u64_limbs e n b = Some l -> length l = n.
Proof.
  unfold decompose_fe_to_u64_limbs, decompose_u64_digits_to_limbs. destruct (Nat.ltb b 64); [|discriminate]. destruct (next_or0 _). intros [= <-]. apply du64_len.
Qed.
Lemma rel_dfu x x' n b : eqm x x' -> rel (lift (decompose_fe_to_u64_limbs (p:=p) x n b)) (lift (decompose_fe_to_u64_limbs x' n b)) (Forall2 eqm).
Proof.
  intros H. apply rel_lift. apply (optR_f mode (fun x => decompose_fe_to_u64_limbs x n b)); auto. apply Forall2_eqm_refl.
  intros Hm l l' E E'. apply Forall2_len_eqm; auto. now rewrite (dfu_len _ _ _ _ E), (dfu_len _ _ _ _ E').
Qed.
Lemma r_wits (l l' : list Z) : Forall2 eqm l l' -> Forall2 qR (map (fun x => Witness (of_Z p x)) l) (map (fun x => Witness (of_Z p x)) l').
Proof. intros. eapply Forall2_map_l; [exact H|]. intros. cbn. req. Qed.
Lemma r_consts (l : list Fp) : Forall2 qR (map Constant l) (map Constant l).
Proof. eapply Forall2_map_l; [apply (Forall2_refl eq); auto|]. intros ? ? <-. reflexivity. Qed.
Lemma qR_refl_const (l : list qc) : Forall (fun q => match q with Constant _ => True | _ => False end) l -> Forall2 qR l l.
Proof. induction 1; constructor; auto. destruct x; cbn; try contradiction; auto. Qed.
Lemma rel_lift_same {A} (o : option A) : rel (lift o) (lift o) eq.
Proof. apply rel_lift. intros a ->. auto. Qed.

Lemma rel_num_to_bits a a' n : avR a a' -> rel (num_to_bits a n) (num_to_bits a' n) (Forall2 avR).
Proof.
  intros Ha. unfold num_to_bits. eapply rel_bind; [apply rel_lift, r_av_value; eauto|]. intros v v' Hv. eapply rel_bind; [apply rel_dfu; auto|]. intros l l' Hl.
  eapply rel_bind; [apply rel_len|]. intros row ? <-. eapply rel_bind; [apply rel_lift_same|]. intros pw ? <-.
  eapply rel_bind; [apply rel_inner_product; [now apply r_wits|apply r_consts]|]. intros acc acc' Hacc. eapply rel_bind; [now apply rel_constrain_equal|]. intros _ _ _.
  rl. eapply rel_bind. { eapply rel_mapM; [apply (Forall2_refl eq); auto|]. intros ? ? <-. apply rel_get. }
  intros. eapply rel_bind. { eapply rel_iterM; [|apply rel_assert_bit]. constructor; eauto. } intros. rl.
Qed.
Lemma r_existings (l l' : list AV) : Forall2 avR l l' -> Forall2 qR (map Existing l) (map Existing l').
Proof. intros. eapply Forall2_map_l; [exact H|]. auto. Qed.
Lemma rel_bits_to_num a a' : Forall2 avR a a' -> rel (bits_to_num a) (bits_to_num a') avR.
Proof.
  intros Ha. unfold bits_to_num. rewrite <- (Forall2_len _ _ _ Ha). rl. eapply rel_bind; [apply rel_lift_same|]. intros pw ? <-.
  apply rel_inner_product; [now apply r_existings|apply r_consts].
Qed.
Lemma rel_pow_var a a' e e' n : avR a a' -> avR e e' -> rel (pow_var a e n) (pow_var a' e' n) avR.
Proof.
  intros Ha He. unfold pow_var. eapply rel_bind; [now apply rel_num_to_bits|]. intros b b' Hb. eapply rel_bind; [apply rel_load_constant|]. intros acc acc' Hacc.
  rewrite <- (Forall2_len _ _ _ Hb). eapply (rel_foldM mode _ _ (fun u v => fst u = fst v /\ avR (snd u) (snd v)) avR); auto.
  - apply Forall2_combine; [apply Forall2_refl; auto|now apply Forall2_rev].
  - intros c d [i x] [i' x'] Hc [E1 Hx]. cbn [fst snd] in *. subst i'. unfold pow_step. cbn [fst snd]. eapply (rel_bind mode) with (R := avR).
    + destruct (Nat.ltb 0 i); [apply rel_mul; auto|rl; auto].
    + intros. eapply rel_bind; [apply rel_mul; auto|]. intros. apply rel_select; auto.
Qed.

(** Lagrange *)
Definition ptR (x y : AV * AV) : Prop := avR (fst x) (fst y) /\ avR (snd x) (snd y).
Lemma rel_lag_denom cs cs' i x x' d d' : Forall2 ptR cs cs' -> avR x x' -> avR d d' -> rel (lag_denom cs i x d) (lag_denom cs' i x' d') avR.
Proof.
  intros HF Hx Hd. unfold lag_denom. rewrite <- (Forall2_len _ _ _ HF).
  eapply (rel_foldM mode _ _ (fun u v => fst u = fst v /\ ptR (snd u) (snd v)) avR); auto.
  - apply Forall2_combine; auto. apply Forall2_refl; auto.
  - intros c e [j pt] [j' pt'] Hc [E1 [Hp1 Hp2]]. cbn [fst snd] in *. subst j'. destruct (Nat.eqb i j); [rl; auto|].
    eapply rel_bind; [apply rel_sub; auto|]. intros. apply rel_mul; auto.
Qed.
Lemma rel_lagrange cs cs' x x' : Forall2 ptR cs cs' -> avR x x' -> rel (lagrange_and_eval cs x) (lagrange_and_eval cs' x') ptR.
Proof.
  intros HF Hx. unfold lagrange_and_eval. destruct HF as [|[x0 y0] [x0' y0'] cs cs' [H0 H0'] HF]; [apply rel_panic|]. cbn [fst snd] in *.
  assert (HF' : Forall2 ptR ((x0, y0) :: cs) ((x0', y0') :: cs')) by (constructor; auto; split; auto).
  eapply rel_bind; [apply rel_sub; auto|]. intros z0 z0' Hz0. eapply rel_bind.
  { eapply (rel_foldM mode _ _ ptR avR); eauto. intros c d [u v] [u' v'] Hc [Hu Hv]. cbn [fst snd] in *. eapply rel_bind; [apply rel_sub; auto|]. intros. apply rel_mul; auto. }
  intros z z' Hz. rewrite <- (Forall2_len _ _ _ HF'). eapply rel_bind.
  { eapply (rel_foldM mode _ _ (fun u v => fst u = fst v /\ ptR (snd u) (snd v)) (oR avR)).
    - apply Forall2_combine; [apply Forall2_refl; auto|exact HF'].
    - intros ev ev' [i [xi yi]] [i' [xi' yi']] Hev [E1 [Hxi Hyi]]. cbn [fst snd] in *. subst i'. unfold lag_step.
      eapply rel_bind; [apply rel_sub; auto|]. intros. eapply rel_bind; [apply rel_lag_denom; eauto|]. intros d d' Hd.
      eapply rel_bind; [apply rel_is_zero; eauto|]. intros. eapply rel_bind; [apply rel_assert_is_const; auto|]. intros _ _ _.
      eapply rel_bind; [apply rel_div_unsafe; auto|]. intros q q' Hq. destruct ev, ev'; cbn [oR] in Hev; try contradiction.
      + eapply rel_bind; [apply rel_add; auto|]. intros. rl; auto.
      + rl; auto.
    - exact I. }
  intros ev ev' Hev. eapply (rel_bind mode) with (R := avR). { apply rel_lift. intros a ->. destruct ev'; [exact Hev|contradiction]. }
  intros. eapply rel_bind; [apply rel_mul; auto|]. intros. rl. split; auto.
Qed.
End RelGate.
