(** Relational reasoning about two runs of the same operation.
    [mode = true]  ("W"): a keygen-mode run against a witness-generation-only run (C18);
    [mode = false] ("S"): two keygen-mode runs on inputs that differ only in witness values (C19). *)
From Coq Require Import ZArith Lia List Bool.
From Verif Require Import Field Spec Context ContextProofs Utils Gate Range.
Import ListNotations.
Local Open Scope Z_scope.
Local Open Scope monad_scope.

Section Rel.
Context {p : positive} (mode : bool).
Notation Fp := (F p).
Notation qc := (qcell p).
Notation AV := (AV p).

Definition eqm {A} (x y : A) : Prop := if mode then x = y else True.
Definition feR := @eqm Fp.
Definition avR (a b : AV) : Prop := if mode then av_val a = av_val b else av_cell a = av_cell b.
Definition qR (a b : qc) : Prop :=
  match a, b with
  | Existing a, Existing b => avR a b
  | Witness v, Witness w => eqm v w
  | WitnessFraction v, WitnessFraction w => eqm v w
  | Constant c, Constant d => c = d
  | _, _ => False
  end.
Definition optR {A B} (R : A -> B -> Prop) (x : option A) (y : option B) : Prop :=
  forall a, x = Some a -> match y with Some b => R a b | None => mode = false end.
Definition oR {A B} (R : A -> B -> Prop) (x : option A) (y : option B) : Prop :=
  match x, y with Some a, Some b => R a b | None, None => True | _, _ => False end.
Definition lkR (x y : tag * AV) : Prop := fst x = fst y /\ avR (snd x) (snd y).

Record stR (s1 s2 : st p) : Prop := mkStR {
  r_wgo1 : wgo s1 = false; r_wgo2 : wgo s2 = mode;
  r_tid : s_tid s1 = s_tid s2; r_cid : s_cid s1 = s_cid s2;
  r_adv : if mode then advice s1 = advice s2 else length (advice s1) = length (advice s2);
  r_zero : oR avR (zero_cell s1) (zero_cell s2);
  r_lk : Forall2 lkR (lookups s1) (lookups s2);
  r_sel : selector s2 = if mode then [] else selector s1;
  r_eqs : adv_eqs s2 = if mode then [] else adv_eqs s1;
  r_cst : const_eqs s2 = if mode then [] else const_eqs s1 }.

Definition rel {A B} (m1 : M p A) (m2 : M p B) (R : A -> B -> Prop) : Prop :=
  forall s1 s2, stR s1 s2 -> optR (fun x y => R (fst x) (fst y) /\ stR (snd x) (snd y)) (m1 s1) (m2 s2).

End Rel.
Arguments r_wgo1 {p mode} s1 s2 _.
Arguments r_wgo2 {p mode} s1 s2 _.
Arguments r_tid {p mode} s1 s2 _.
Arguments r_cid {p mode} s1 s2 _.
Arguments r_adv {p mode} s1 s2 _.
Arguments r_zero {p mode} s1 s2 _.
Arguments r_lk {p mode} s1 s2 _.
Arguments r_sel {p mode} s1 s2 _.
Arguments r_eqs {p mode} s1 s2 _.
Arguments r_cst {p mode} s1 s2 _.
Section Rel2.
Context {p : positive} (mode : bool).
Notation Fp := (F p).
Notation qc := (qcell p).
Notation AV := (AV p).
Local Notation eqm := (eqm mode).
Local Notation avR := (@Rel.avR p mode).
Local Notation qR := (@Rel.qR p mode).
Local Notation optR := (optR mode).
Local Notation stR := (@Rel.stR p mode).
Local Notation rel := (@Rel.rel p mode _ _).
Local Notation feR := (@Rel.feR p mode).
Local Notation lkR := (@Rel.lkR p mode).

Lemma r_alen s1 s2 : stR s1 s2 -> alen s1 = alen s2.
Proof. intros [? ? ? ? H ? ? ? ? ?]. unfold alen. destruct mode; [now rewrite H|auto]. Qed.
Lemma r_cl s1 s2 i : stR s1 s2 -> cl s1 i = cl s2 i.
Proof. intros []. unfold cl. congruence. Qed.

Lemma rel_ret {A B} (a : A) (b : B) (R : A -> B -> Prop) : R a b -> rel (ret a) (ret b) R.
Proof. intros H s1 s2 Hs x [= <-]. cbn. auto. Qed.
Lemma rel_panic {A B} (m : M p B) (R : A -> B -> Prop) : rel panic m R.
Proof. intros s1 s2 _ x [=]. Qed.
Lemma rel_bind {A B C D} (m1 : M p A) (m2 : M p B) (f : A -> M p C) (g : B -> M p D) R S :
  rel m1 m2 R -> (forall a b, R a b -> rel (f a) (g b) S) -> rel (bind m1 f) (bind m2 g) S.
Proof.
  intros H1 H2 s1 s2 Hs x E. unfold bind in *. destruct (m1 s1) as [[a s1']|] eqn:E1; [|discriminate].
  pose proof (H1 s1 s2 Hs _ E1) as K. destruct (m2 s2) as [[b s2']|]; cbn in K; auto. destruct K as [K1 K2]. exact (H2 a b K1 s1' s2' K2 x E).
Qed.
Lemma rel_weaken {A B} (m1 : M p A) (m2 : M p B) (R S : A -> B -> Prop) : rel m1 m2 R -> (forall a b, R a b -> S a b) -> rel m1 m2 S.
Proof. intros H HS s1 s2 Hs x E. pose proof (H s1 s2 Hs x E) as K. destruct (m2 s2) as [[b s2']|]; auto. destruct K; split; auto. Qed.
Lemma rel_lift {A B} (o1 : option A) (o2 : option B) (R : A -> B -> Prop) : optR R o1 o2 -> rel (lift o1) (lift o2) R.
Proof.
  intros H s1 s2 Hs x E. unfold lift in *. destruct o1 as [a|]; [|discriminate]. specialize (H a eq_refl). destruct o2; auto. inversion E; subst; cbn. auto.
Qed.
Lemma rel_assert c1 c2 : (c1 = true -> eqm c2 true) -> rel (assert_ c1) (assert_ c2) (fun _ _ => True).
Proof.
  intros H s1 s2 Hs x E. unfold assert_ in *. destruct c1; [|discriminate]. specialize (H eq_refl). unfold Rel.eqm in H.
  destruct c2; cbn in *. inversion E; subst; cbn; auto. destruct mode; [discriminate|reflexivity].
Qed.
Lemma rel_mapM {A B C D} (f : A -> M p C) (g : B -> M p D) (RA : A -> B -> Prop) (R : C -> D -> Prop) l1 l2 :
  Forall2 RA l1 l2 -> (forall x y, RA x y -> rel (f x) (g y) R) -> rel (mapM f l1) (mapM g l2) (Forall2 R).
Proof.
  intros HF H. induction HF; cbn [mapM]; [apply rel_ret; constructor|].
  eapply rel_bind; [apply H; eauto|]. intros. eapply rel_bind; [exact IHHF|]. intros. apply rel_ret. now constructor.
Qed.
Lemma rel_iterM {A B} (f : A -> M p unit) (g : B -> M p unit) (RA : A -> B -> Prop) l1 l2 :
  Forall2 RA l1 l2 -> (forall x y, RA x y -> rel (f x) (g y) (fun _ _ => True)) -> rel (iterM f l1) (iterM g l2) (fun _ _ => True).
Proof.
  intros HF H. induction HF; cbn [iterM]; [now apply rel_ret|].
  eapply rel_bind; [apply H; eauto|]. intros. exact IHHF.
Qed.
Lemma rel_foldM {A B C D} (f : C -> A -> M p C) (g : D -> B -> M p D) (RA : A -> B -> Prop) (R : C -> D -> Prop) l1 l2 :
  Forall2 RA l1 l2 -> (forall c d x y, R c d -> RA x y -> rel (f c x) (g d y) R) -> forall c d, R c d -> rel (foldM f l1 c) (foldM g l2 d) R.
Proof.
  intros HF H. induction HF; intros c d Hcd; cbn [foldM]; [now apply rel_ret|].
  eapply rel_bind; [apply H; eauto|]. intros. auto.
Qed.

(** ** primitives *)
Lemma rel_len : rel ctx_len ctx_len eq.
Proof. intros s1 s2 Hs x [= <-]. cbn. split; auto. now apply r_alen. Qed.

Lemma r_push_advice s1 s2 v w : stR s1 s2 -> eqm v w -> stR (push_advice s1 v) (push_advice s2 w).
Proof.
  intros [] H. constructor; cbn; auto. unfold Rel.eqm in H. destruct mode; [now rewrite H, r_adv0|]. rewrite !app_length. cbn. now rewrite r_adv0.
Qed.

Lemma rel_assign_cell q1 q2 : qR q1 q2 -> rel (assign_cell q1) (assign_cell q2) (fun _ _ => True).
Proof.
  intros H s1 s2 Hs [[] s1'] E. pose proof (r_wgo1 _ _ Hs) as W1. pose proof (r_alen _ _ Hs) as L.
  destruct q1, q2; cbn [qR] in H; try contradiction; cbn [assign_cell] in *; rewrite ?W1 in E; rewrite ?(r_wgo2 _ _ Hs).
  - destruct (av_cell a) as [c|] eqn:Ec; [|discriminate]. inversion E; subst; clear E.
    assert (K : eqm (av_val a) (av_val a0)) by (unfold Rel.avR, Rel.eqm in *; destruct mode; auto).
    pose proof (r_push_advice _ _ _ _ Hs K) as Hs'. pose proof (r_cl _ _ (alen s1) Hs) as C.
    unfold Rel.avR in H. destruct mode.
    + cbn. split; auto. destruct Hs'. constructor; auto.
    + rewrite Ec in H. rewrite <- H. cbn. split; auto. destruct Hs'. constructor; cbn; auto.
      rewrite !latest_push, <- L, <- C. now rewrite (r_eqs _ _ Hs).
  - inversion E; subst; cbn. split; auto. apply r_push_advice; auto. unfold Rel.eqm in *. destruct mode; congruence.
  - inversion E; subst; cbn. split; auto. apply r_push_advice; auto.
  - subst c0. inversion E; subst; clear E. assert (K : eqm (@ATriv p c) (ATriv c)) by (unfold Rel.eqm; now destruct mode).
    pose proof (r_push_advice _ _ _ _ Hs K) as Hs'. pose proof (r_cl _ _ (alen s1) Hs) as C. destruct mode.
    + cbn. split; auto. destruct Hs'. constructor; auto.
    + cbn. split; auto. destruct Hs'. constructor; cbn; auto. rewrite !latest_push, <- L, <- C. now rewrite (r_cst _ _ Hs).
Qed.

Lemma r_nth s1 s2 i v : stR s1 s2 -> nth_error (advice s1) i = Some v -> exists w, nth_error (advice s2) i = Some w /\ eqm v w.
Proof.
  intros Hs E. pose proof (r_alen _ _ Hs) as L. destruct Hs. unfold Rel.eqm. destruct mode; [rewrite <- r_adv0; eauto|].
  assert (i < length (advice s2))%nat by (unfold alen in L; rewrite <- L; apply nth_error_Some; congruence).
  apply nth_error_Some in H. destruct (nth_error (advice s2) i); [eauto|congruence].
Qed.
Lemma r_mk_av s1 s2 v w i : stR s1 s2 -> eqm v w -> avR (mk_av s1 v i) (mk_av s2 w i).
Proof.
  intros Hs H. unfold Rel.avR, mk_av, Rel.eqm in *. rewrite (r_wgo1 _ _ Hs), (r_wgo2 _ _ Hs), (r_cl _ _ i Hs). destruct mode; auto.
Qed.
Lemma rel_get o : rel (ctx_get o) (ctx_get o) avR.
Proof.
  intros s1 s2 Hs [a s1'] E. unfold ctx_get in *. rewrite <- (r_alen _ _ Hs).
  destruct (_ <? 0) eqn:E0; [discriminate|]. destruct (nth_error (advice s1) _) as [v|] eqn:Ev; [|discriminate].
  destruct (r_nth _ _ _ _ Hs Ev) as (w & -> & Hw). inversion E; subst; cbn. split; auto. now apply r_mk_av.
Qed.
Lemma rel_last : rel ctx_last ctx_last avR.
Proof.
  intros s1 s2 Hs [a s1'] E. unfold ctx_last in *. rewrite <- (r_alen _ _ Hs).
  destruct (nth_error (advice s1) _) as [v|] eqn:Ev; [|discriminate].
  destruct (r_nth _ _ _ _ Hs Ev) as (w & -> & Hw). inversion E; subst; cbn. split; auto. now apply r_mk_av.
Qed.

Lemma rel_constrain_equal a b a' b' : avR a a' -> avR b b' -> rel (constrain_equal a b) (constrain_equal a' b') (fun _ _ => True).
Proof.
  intros Ha Hb s1 s2 Hs [[] s1'] E. unfold constrain_equal in *. rewrite (r_wgo1 _ _ Hs) in E. rewrite (r_wgo2 _ _ Hs).
  destruct (av_cell a) as [x|] eqn:Ex; [|discriminate]. destruct (av_cell b) as [y|] eqn:Ey; [|discriminate]. inversion E; subst; clear E.
  unfold Rel.avR in *. destruct mode.
  - cbn. split; auto. destruct Hs. constructor; auto.
  - rewrite <- Ha, <- Hb, Ex, Ey. cbn. split; auto. destruct Hs. constructor; cbn; auto. now rewrite r_eqs0.
Qed.
Lemma rel_assert_is_const a a' c : avR a a' -> rel (assert_is_const a c) (assert_is_const a' c) (fun _ _ => True).
Proof.
  intros Ha s1 s2 Hs [[] s1'] E. unfold assert_is_const in *. rewrite (r_wgo1 _ _ Hs) in E. rewrite (r_wgo2 _ _ Hs).
  destruct (av_cell a) as [x|] eqn:Ex; [|discriminate]. inversion E; subst; clear E.
  unfold Rel.avR in *. destruct mode.
  - cbn. split; auto. destruct Hs. constructor; auto.
  - rewrite <- Ha, Ex. cbn. split; auto. destruct Hs. constructor; cbn; auto. now rewrite r_cst0.
Qed.
Lemma rel_lookup a a' : avR a a' -> rel (add_cell_to_lookup a) (add_cell_to_lookup a') (fun _ _ => True).
Proof.
  intros Ha s1 s2 Hs [[] s1'] [= <-]. cbn. split; auto. destruct Hs. constructor; cbn; auto.
  apply Forall2_app; auto. constructor; [|constructor]. split; cbn; congruence.
Qed.

(** the part of assign_region that only happens in keygen mode *)
Definition upd_sel (row : nat) (offs : list Z) : M p unit := resize_selector ;;; iterM (enable_gate row) offs.
Lemma enable_shape row offs : forall s1 s1' : st p, iterM (enable_gate row) offs s1 = Some (tt, s1') ->
  s1' = set_selector s1 (selector s1').
Proof.
  induction offs as [|o offs IH]; intros s1 s1' E; cbn [iterM] in E.
  - inversion E. destruct s1'; reflexivity.
  - unfold bind in E. destruct (enable_gate row o s1) as [[[] s3]|] eqn:E1; [|discriminate]. apply IH in E.
    unfold enable_gate in E1. destruct (_ <? 0); [discriminate|]. destruct (set_true _ _); [|discriminate]. inversion E1; subst. rewrite E. reflexivity.
Qed.
Lemma enable_same row offs : forall s1 s2 s1' : st p, selector s1 = selector s2 -> iterM (enable_gate row) offs s1 = Some (tt, s1') ->
  iterM (enable_gate row) offs s2 = Some (tt, set_selector s2 (selector s1')).
Proof.
  induction offs as [|o offs IH]; intros s1 s2 s1' H E; cbn [iterM] in *.
  - inversion E; subst. rewrite H. destruct s2; reflexivity.
  - unfold bind in *. destruct (enable_gate row o s1) as [[[] s3]|] eqn:E1; [|discriminate].
    unfold enable_gate in *. destruct (_ <? 0); [discriminate|]. rewrite <- H. destruct (set_true _ _); [|discriminate]. inversion E1; subst; clear E1.
    rewrite (IH (set_selector s1 l) (set_selector s2 l) s1' eq_refl E). reflexivity.
Qed.
Lemma r_upd_sel row offs s1 s2 s1' : stR s1 s2 -> upd_sel row offs s1 = Some (tt, s1') ->
  match (if mode then Some (tt, s2) else upd_sel row offs s2) with Some (_, s2') => stR s1' s2' | None => False end.
Proof.
  intros Hs E. unfold upd_sel, bind, resize_selector in E. pose proof (enable_shape _ _ _ _ E) as S1.
  pose proof (r_alen _ _ Hs) as L. pose proof (r_sel _ _ Hs) as Z. destruct mode.
  - rewrite S1. destruct Hs. constructor; auto.
  - unfold upd_sel, bind, resize_selector.
    rewrite (enable_same row offs (set_selector s1 (resize (selector s1) (alen s1))) (set_selector s2 (resize (selector s2) (alen s2))) s1'); [|cbn; now rewrite Z, L|auto].
    rewrite S1. destruct Hs. constructor; cbn; auto.
Qed.

Lemma rel_region l1 l2 offs : Forall2 qR l1 l2 -> rel (assign_region l1 offs) (assign_region l2 offs) (fun _ _ => True).
Proof.
  intros HF. pose proof (rel_iterM assign_cell assign_cell qR l1 l2 HF rel_assign_cell) as HI.
  intros s1 s2 Hs [[] s1'] E. unfold assign_region, bind, ctx_wgo, ctx_len in *.
  pose proof (r_wgo1 _ _ Hs) as W1. rewrite W1 in E. rewrite (r_wgo2 _ _ Hs).
  destruct (iterM assign_cell l1 s1) as [[[] s3]|] eqn:E1; [|discriminate].
  pose proof (HI s1 s2 Hs _ E1) as K. cbn [fst snd] in K.
  pose proof (r_upd_sel (alen s1) offs s3) as U. pose proof (r_alen _ _ Hs) as L. destruct mode.
  - destruct (iterM assign_cell l2 s2) as [[[] s4]|]; [|discriminate]. destruct K as [_ K]. cbn. split; [auto|]. apply (U s4 s1' K E).
  - destruct (iterM assign_cell l2 s2) as [[[] s4]|]; auto. destruct K as [_ K]. specialize (U s4 s1' K E).
    rewrite <- L. unfold upd_sel, bind, resize_selector in U. unfold resize_selector. destruct (iterM (enable_gate (alen s1)) offs (set_selector s4 _)) as [[[] s5]|]; [auto|contradiction].
Qed.
Lemma rel_region_last l1 l2 offs : Forall2 qR l1 l2 -> rel (assign_region_last l1 offs) (assign_region_last l2 offs) avR.
Proof. intros. eapply rel_bind; [now apply rel_region|]. intros. apply rel_last. Qed.

Lemma rel_eq_offs row eqs : forall s1 s2 s1', stR s1 s2 -> iterM (push_eq_offs row) eqs s1 = Some (tt, s1') ->
  match (if mode then Some (tt, s2) else iterM (push_eq_offs row) eqs s2) with Some (_, s2') => stR s1' s2' | None => False end.
Proof.
  induction eqs as [|[i j] eqs IH]; intros s1 s2 s1' Hs E; cbn [iterM] in *.
  - inversion E; subst. destruct mode; exact Hs.
  - unfold bind in *. destruct (push_eq_offs row (i, j) s1) as [[[] s3]|] eqn:E1; [|discriminate]. unfold push_eq_offs in *. cbn [fst snd] in *.
    destruct (_ || _); [discriminate|]. inversion E1; subst; clear E1. pose proof (r_cl _ _ (Z.to_nat (Z.of_nat row + i)) Hs) as C1.
    pose proof (r_cl _ _ (Z.to_nat (Z.of_nat row + j)) Hs) as C2. rewrite C1, C2 in E. destruct mode.
    + refine (IH _ s2 _ _ E). destruct Hs. constructor; auto.
    + refine (IH _ _ _ _ E). destruct Hs. constructor; cbn; auto. now rewrite r_eqs0.
Qed.
Lemma rel_smart l1 l2 offs eqs : Forall2 qR l1 l2 -> rel (assign_region_smart l1 offs eqs) (assign_region_smart l2 offs eqs) (fun _ _ => True).
Proof.
  intros HF. unfold assign_region_smart. eapply rel_bind; [apply rel_len|]. intros row ? <-. eapply rel_bind; [now apply rel_region|]. intros _ _ _.
  intros s1 s2 Hs [[] s1'] E. unfold bind, ctx_wgo in *. rewrite (r_wgo1 _ _ Hs) in E. rewrite (r_wgo2 _ _ Hs).
  pose proof (rel_eq_offs row eqs s1 s2 s1' Hs E) as K. destruct mode; cbn; auto.
  destruct (iterM (push_eq_offs row) eqs s2) as [[[] s5]|]; [auto|contradiction].
Qed.

Lemma rel_witnesses l1 l2 : Forall2 (@Rel.eqm mode Fp) l1 l2 -> rel (assign_witnesses l1) (assign_witnesses l2) (Forall2 avR).
Proof.
  intros HF. unfold assign_witnesses. eapply rel_bind; [apply rel_len|]. intros row ? <-.
  eapply rel_bind. { apply rel_region. clear -HF. induction HF; cbn; constructor; auto. }
  intros _ _ _ s1 s2 Hs [r s1'] [= <- <-]. cbn. split; auto. rewrite <- (r_alen _ _ Hs).
  assert (K : Forall2 eqm (skipn row (advice s1)) (skipn row (advice s2))).
  { pose proof (r_adv _ _ Hs) as A. unfold Rel.eqm. destruct mode.
    - rewrite A. clear. induction (skipn row (advice s2)); constructor; auto.
    - assert (L : length (skipn row (advice s1)) = length (skipn row (advice s2))) by (rewrite !skipn_length; congruence).
      revert L. generalize (skipn row (advice s1)) (skipn row (advice s2)). intros u; induction u as [|x u IH]; intros v; destruct v; cbn; intros; try discriminate; constructor; auto. }
  revert K. generalize (skipn row (advice s1)) (skipn row (advice s2)) (seq 0 (alen s1 - row)). intros u v k K. revert k.
  induction K; intros [|i k]; cbn; constructor; auto. now apply r_mk_av.
Qed.

Lemma rel_load q1 q2 : qR q1 q2 ->
  rel (assign_cell q1 ;;; wg <- ctx_wgo ;; (if wg then ret tt else resize_selector) ;;; ctx_last)
      (assign_cell q2 ;;; wg <- ctx_wgo ;; (if wg then ret tt else resize_selector) ;;; ctx_last) avR.
Proof.
  intros H. eapply rel_bind; [now apply rel_assign_cell|]. intros _ _ _ s1 s2 Hs [a s1'] E. unfold bind, ctx_wgo in *.
  rewrite (r_wgo1 _ _ Hs) in E. rewrite (r_wgo2 _ _ Hs). cbn [ret resize_selector] in *. unfold ret, resize_selector in *.
  assert (K : stR (set_selector s1 (resize (selector s1) (alen s1))) (if mode then s2 else set_selector s2 (resize (selector s2) (alen s2)))).
  { pose proof (r_alen _ _ Hs) as L. destruct Hs. destruct mode; constructor; cbn; auto. now rewrite r_sel0, L. }
  pose proof (rel_last _ _ K _ E) as K2. destruct mode; exact K2.
Qed.
Lemma rel_load_witness v w : eqm v w -> rel (load_witness v) (load_witness w) avR.
Proof. intros. now apply rel_load. Qed.
Lemma rel_load_constant c : rel (load_constant c) (load_constant c) avR.
Proof. now apply rel_load. Qed.
Lemma rel_load_constants cs : rel (load_constants cs) (load_constants cs) (Forall2 avR).
Proof. apply rel_mapM with (RA := eq); [induction cs; constructor; auto|]. intros ? ? <-. apply rel_load_constant. Qed.
Lemma rel_load_zero : rel load_zero load_zero avR.
Proof.
  intros s1 s2 Hs [a s1'] E. unfold load_zero in *. pose proof (r_zero _ _ Hs) as Z.
  destruct (zero_cell s1) as [z1|], (zero_cell s2) as [z2|]; cbn in Z; try contradiction.
  - inversion E; subst. cbn. auto.
  - unfold bind in *. destruct (load_constant F0 s1) as [[z s3]|] eqn:E1; [|discriminate].
    pose proof (rel_load_constant F0 s1 s2 Hs _ E1) as K. destruct (load_constant F0 s2) as [[z' s4]|]; auto. destruct K as [K1 K2]. cbn in *.
    inversion E; subst. split; auto. destruct K2. constructor; cbn; auto.
Qed.

(** values *)
Lemma r_av_value a b : avR a b -> optR feR (av_value a) (av_value b).
Proof. unfold Rel.avR, optR, av_value, feR, Rel.eqm. intros H x E. destruct mode; [rewrite <- H, E; auto|]. destruct (av_val b); auto. Qed.
Lemma r_q_value a b : qR a b -> optR feR (q_value a) (q_value b).
Proof.
  destruct a, b; cbn [qR q_value]; try contradiction; intros H; [now apply r_av_value|..]; intros x [= <-]; auto. subst. unfold feR, Rel.eqm. now destruct mode.
Qed.
Lemma eqm_refl {A} (x : A) : eqm x x.
Proof. unfold Rel.eqm. now destruct mode. Qed.
Lemma eqm_f {A B} (f : A -> B) x y : eqm x y -> eqm (f x) (f y).
Proof. unfold Rel.eqm. destruct mode; auto. intros ->; auto. Qed.
Lemma eqm_f2 {A B C} (f : A -> B -> C) x y x' y' : eqm x y -> eqm x' y' -> eqm (f x x') (f y y').
Proof. unfold Rel.eqm. destruct mode; auto. intros -> ->; auto. Qed.
Lemma optR_f {A C} (f : A -> option C) x y (R : C -> C -> Prop) : @Rel.eqm mode A x y -> (forall a, R a a) -> (mode = false -> forall a b, f x = Some a -> f y = Some b -> R a b) -> optR R (f x) (f y).
Proof.
  unfold Rel.eqm, optR. intros H HR HS a E. destruct mode; [subst; rewrite E; auto|]. destruct (f y) eqn:E2; auto.
Qed.
End Rel2.
