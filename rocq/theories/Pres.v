(** Invariant of every context built by the library (C20, C22): gates stay in their context and never start at distance 1 or 2,
    every recorded constraint refers to an assigned cell of the context, and nothing recorded earlier is lost. *)
From Coq Require Import ZArith Lia List Bool.
From Verif Require Import Field Spec Context ContextProofs Utils Gate Range.
Import ListNotations.
Local Open Scope Z_scope.
Local Open Scope monad_scope.

Section Pres.
Context {p : positive}.
Notation Fp := (F p).
Notation qc := (qcell p).
Notation AV := (AV p).

Definition on (s : st p) (i : nat) : Prop := nth_error (selector s) i = Some true.
(** cell [c] is an assigned cell of the context of [s] *)
Definition cell_in (s : st p) (c : cell) : Prop := exists i, c = cl s i /\ (i < alen s)%nat.
Record Inv (s : st p) : Prop := mkInv {
  i_wf : wf s;
  i_in : forall i, on s i -> (i + 3 < alen s)%nat;
  i_sp : forall i j, on s i -> on s j -> (i < j)%nat -> (i + 3 <= j)%nat;
  i_eq : forall a b, In (a, b) (adv_eqs s) -> cell_in s a /\ cell_in s b;
  i_cst : forall c a, In (c, a) (const_eqs s) -> cell_in s a;
  i_lk : forall t a, In (t, a) (lookups s) -> t = (s_tid s, s_cid s) /\ av_in s a }.

Lemma inv_new ph tid cid : Inv (new_ctx false ph tid cid).
Proof. constructor; cbn; try tauto; [apply wf_new|..]; unfold on; cbn; intros i; destruct i; discriminate. Qed.

Lemma ext_alen (s s' : st p) : ext s s' -> (alen s <= alen s')%nat.
Proof. intros E. unfold alen. destruct (ext_adv _ _ E) as [l ->]. rewrite app_length. lia. Qed.
Lemma cell_in_mono (s s' : st p) c : ext s s' -> cell_in s c -> cell_in s' c.
Proof. intros E (i & -> & H). exists i. rewrite (ext_cl _ _ _ E). split; auto. pose proof (ext_alen _ _ E). lia. Qed.
Lemma av_in_cell (s : st p) a c : av_in s a -> av_cell a = Some c -> cell_in s c.
Proof. intros (i & H1 & H2) H. exists i. split; [congruence|]. unfold alen. apply nth_error_Some. congruence. Qed.

(** [pres L m f]: run on a context satisfying the invariant and containing the values [L], [m] keeps the invariant, loses nothing,
    and the values [f r] of its result [r] live in the context *)
Definition pres {A} (L : list AV) (m : M p A) (f : A -> list AV) : Prop :=
  forall s a s', Inv s -> Forall (av_in s) L -> m s = Some (a, s') -> Inv s' /\ ext s s' /\ Forall (av_in s') (f a).

Lemma Fin_mono (s s' : st p) L : ext s s' -> Forall (av_in s) L -> Forall (av_in s') L.
Proof. intros E. apply Forall_impl. intros. eapply av_in_mono; eauto. Qed.

Lemma pres_bind {A B} L (m : M p A) (k : A -> M p B) f g : pres L m f -> (forall a, pres (f a ++ L) (k a) g) -> pres L (bind m k) g.
Proof.
  intros H1 H2 s b s' HI HL E. apply bind_inv in E as (a & s1 & E1 & E2). destruct (H1 s a s1 HI HL E1) as (I1 & X1 & F1).
  destruct (H2 a s1 b s' I1) as (I2 & X2 & F2); auto. { apply Forall_app. split; auto. eapply Fin_mono; eauto. }
  split; auto. split; auto. eapply ext_trans; eauto.
Qed.
Lemma pres_weaken {A} L L' (m : M p A) f g : pres L' m f -> incl L' L -> (forall a, incl (g a) (f a)) -> pres L m g.
Proof.
  intros H HL Hg s a s' HI HF E. destruct (H s a s' HI) as (I1 & X1 & F1); auto. { rewrite Forall_forall in *. auto. }
  split; auto. split; auto. rewrite Forall_forall in *. intros x Hx. apply F1, (Hg a), Hx.
Qed.
Lemma pres_sub {A} L L' (m : M p A) f : pres L' m f -> incl L' L -> pres L m f.
Proof. intros. eapply pres_weaken; eauto. intros; apply incl_refl. Qed.
Lemma pres_ret {A} L (a : A) f : incl (f a) L -> pres L (ret a) f.
Proof. intros H s b s' HI HL [= <- <-]. split; auto. split; [apply ext_refl|]. rewrite Forall_forall in *. auto. Qed.
Lemma pres_panic {A} L (f : A -> list AV) : pres L panic f.
Proof. intros s a s' _ _ [=]. Qed.
Lemma pres_lift {A} L (o : option A) f : (forall a, o = Some a -> incl (f a) L) -> pres L (lift o) f.
Proof. intros H s a s' HI HL E. apply lift_inv in E as [-> ->]. split; auto. split; [apply ext_refl|]. specialize (H a eq_refl). rewrite Forall_forall in *. auto. Qed.
Lemma pres_lift0 {A} L (o : option A) : pres L (lift o) (fun _ => []).
Proof. apply pres_lift. intros ? _ ? []. Qed.
(** a lift whose result carries extra (value independent) information *)
Lemma pres_lift_bind {A B} L (o : option A) (k : A -> M p B) g : (forall a, o = Some a -> pres L (k a) g) -> pres L (bind (lift o) k) g.
Proof. intros H s b s' HI HL E. apply bind_inv in E as (a & s1 & E1 & E2). apply lift_inv in E1 as [E1 ->]. eapply H; eauto. Qed.
Lemma pres_assert_bind {B} L c (k : unit -> M p B) g : (c = true -> pres L (k tt) g) -> pres L (bind (assert_ c) k) g.
Proof. intros H s b s' HI HL E. apply bind_inv in E as ([] & s1 & E1 & E2). apply assert_inv in E1 as [E1 ->]. eapply H; eauto. Qed.
Lemma pres_mapM {A B} L (fn : A -> M p B) f l : (forall x, In x l -> pres L (fn x) f) -> pres L (mapM fn l) (flat_map f).
Proof.
  induction l as [|x l IH]; intros H; cbn [mapM]. { apply pres_ret. intros ? []. }
  eapply pres_bind; [apply H; now left|]. intros y. eapply pres_bind. { eapply pres_sub; [apply IH; intros; apply H; now right|]. now apply incl_appr. }
  intros ys. apply pres_ret. cbn [flat_map]. apply incl_app; [apply incl_appr, incl_appl, incl_refl|apply incl_appl, incl_refl].
Qed.
Lemma pres_iterM {A} L (fn : A -> M p unit) l : (forall x, In x l -> pres L (fn x) (fun _ => [])) -> pres L (iterM fn l) (fun _ => []).
Proof.
  induction l as [|x l IH]; intros H; cbn [iterM]. { apply pres_ret. intros ? []. }
  eapply pres_bind; [apply H; now left|]. intros y. cbn [app]. apply IH. intros; apply H; now right.
Qed.
Lemma pres_foldM {A B} L (fn : B -> A -> M p B) (fb : B -> list AV) l : (forall b x, In x l -> pres (fb b ++ L) (fn b x) fb) ->
  forall b, incl (fb b) L -> pres L (foldM fn l b) fb.
Proof.
  revert L. induction l as [|x l IH]; intros L H b Hb; cbn [foldM]. { now apply pres_ret. }
  eapply pres_bind. { eapply pres_sub; [apply H; now left|]. apply incl_app; auto. apply incl_refl. }
  intros b'. apply IH; [|now apply incl_appl, incl_refl]. intros b0 y Hy. eapply pres_sub; [apply H; now right|]. apply incl_app; [now apply incl_appl, incl_refl|apply incl_appr, incl_appr, incl_refl].
Qed.

(** ** primitives *)
Lemma pres_len L : pres L ctx_len (fun _ => []).
Proof. intros s a s' HI HL [= <- <-]. auto using ext_refl. Qed.
Lemma pres_get L o : pres L (ctx_get o) (fun a => [a]).
Proof.
  intros s a s' HI HL E. pose proof (i_wf _ HI) as HW. unfold ctx_get in E. destruct (_ <? 0) eqn:E0; [discriminate|].
  destruct (nth_error (advice s) _) as [v|] eqn:Ev; [|discriminate]. inversion E; subst; clear E. split; auto. split; [apply ext_refl|].
  repeat constructor. eexists. unfold mk_av. rewrite (wf_wgo _ HW). cbn. split; [reflexivity|exact Ev].
Qed.
Lemma pres_last L : pres L ctx_last (fun a => [a]).
Proof. intros s a s' HI HL E. rewrite ctx_last_get in E. now apply (pres_get L (-1) s a s'). Qed.

Definition qav (q : qc) : list AV := match q with Existing a => [a] | _ => [] end.
Definition qavs (l : list qc) : list AV := flat_map qav l.
Definition offs_ok (n : nat) (offs : list Z) : Prop :=
  (forall o, In o offs -> 0 <= o /\ o + 3 < Z.of_nat n) /\ (forall i j, In i offs -> In j offs -> i < j -> i + 3 <= j).

(** constraints added by assigning cells *)
Lemma iter_assign_eqs l : forall (s : st p) u s', wgo s = false -> iterM assign_cell l s = Some (u, s') -> Forall (av_in s) (qavs l) ->
  (forall a b, In (a, b) (adv_eqs s') -> In (a, b) (adv_eqs s) \/ (cell_in s' a /\ cell_in s' b)) /\
  (forall c a, In (c, a) (const_eqs s') -> In (c, a) (const_eqs s) \/ cell_in s' a) /\ ext s s'.
Proof.
  induction l as [|q l IH]; intros s u s' W E HL; cbn [iterM] in E.
  - inversion E; subst. split; [auto|]. split; [auto|apply ext_refl].
  - apply bind_inv in E as (u1 & s1 & E1 & E2). unfold qavs in HL. cbn [flat_map] in HL. apply Forall_app in HL as [HL1 HL2].
    assert (X1 : ext s s1 /\ (forall a b, In (a, b) (adv_eqs s1) -> In (a, b) (adv_eqs s) \/ (cell_in s1 a /\ cell_in s1 b)) /\
      (forall c a, In (c, a) (const_eqs s1) -> In (c, a) (const_eqs s) \/ cell_in s1 a)).
    { assert (PA : forall v, ext s (push_advice s v)).
      { intros v. constructor; cbn; auto; [eexists; reflexivity|exists []; now rewrite app_nil_r|exists []; now rewrite app_nil_r|exists []; now rewrite app_nil_r]. }
      assert (LC : forall v, cell_in (push_advice s v) (cl s (alen s))).
      { intros v. exists (alen s). split; [reflexivity|]. unfold alen, push_advice. cbn. rewrite app_length. cbn. lia. }
      destruct q; cbn [assign_cell qav] in *; rewrite ?W in E1.
      - destruct (av_cell a) as [c|] eqn:Ec; [|discriminate]. injection E1 as <- <-. rewrite latest_push.
        split; [|split].
        + eapply ext_trans; [apply PA|]. constructor; cbn; auto; [exists []; now rewrite app_nil_r|eexists; reflexivity|exists []; now rewrite app_nil_r|exists []; now rewrite app_nil_r].
        + cbn. intros x y [H|H]%in_app_or; auto. destruct H as [[= <- <-]|[]]. right. split.
          * exact (LC (av_val a)).
          * inversion HL1; subst. apply (cell_in_mono s (push_advice s (av_val a)) c (PA _)). eapply av_in_cell; eauto.
        + cbn. auto.
      - injection E1 as <- <-. split; [apply PA|]. cbn. auto.
      - injection E1 as <- <-. split; [apply PA|]. cbn. auto.
      - injection E1 as <- <-. rewrite latest_push. split; [|split].
        + eapply ext_trans; [apply (PA (ATriv c))|]. constructor; cbn; auto; [exists []; now rewrite app_nil_r|exists []; now rewrite app_nil_r|eexists; reflexivity|exists []; now rewrite app_nil_r].
        + cbn. auto.
        + cbn. intros x y [H|H]%in_app_or; auto. destruct H as [[= <- <-]|[]]. right. exact (LC (ATriv c)). }
    destruct X1 as (X1 & Y1 & Z1).
    destruct (IH s1 u s') as (Y2 & Z2 & X2); auto. { rewrite (ext_wgo _ _ X1); auto. } { eapply Fin_mono; eauto. }
    split; [|split; [|eapply ext_trans; eauto]].
    + intros a b Hin. destruct (Y2 a b Hin) as [H|H]; auto. destruct (Y1 a b H) as [H'|[H1 H2]]; auto. right. split; eapply cell_in_mono; eauto.
    + intros c a Hin. destruct (Z2 c a Hin) as [H|H]; auto. destruct (Z1 c a H) as [H'|H']; auto. right. eapply cell_in_mono; eauto.
Qed.
Lemma region_eqs l offs (s : st p) u s' : wf s -> assign_region l offs s = Some (u, s') -> Forall (av_in s) (qavs l) ->
  (forall a b, In (a, b) (adv_eqs s') -> In (a, b) (adv_eqs s) \/ (cell_in s' a /\ cell_in s' b)) /\
  (forall c a, In (c, a) (const_eqs s') -> In (c, a) (const_eqs s) \/ cell_in s' a).
Proof.
  intros HW E HL. unfold assign_region in E. apply bind_inv in E as (w & s0 & H0 & E). unfold ctx_wgo in H0. injection H0 as <- <-. rewrite (wf_wgo _ HW) in E.
  apply bind_inv in E as (row & s0 & H0 & E). unfold ctx_len in H0. injection H0 as <- <-. apply bind_inv in E as (u1 & s1 & H1 & E).
  apply bind_inv in E as (u2 & s2 & H2 & E). unfold resize_selector in H2. injection H2 as <- <-.
  apply enable_gates_spec in E as (sel & -> & L1 & L2 & L3).
  destruct (iter_assign_eqs l s u1 s1 (wf_wgo _ HW) H1 HL) as (Y & Z & X). cbn. split; auto.
Qed.
Lemma pres_region L l offs : incl (qavs l) L -> offs_ok (length l) offs -> pres L (assign_region l offs) (fun _ => []).
Proof.
  intros HL [HO1 HO2] s u s' HI HF E. pose proof (i_wf _ HI) as HW.
  assert (HFq : Forall (av_in s) (qavs l)) by (rewrite Forall_forall in *; auto).
  destruct (region_eqs l offs s u s' HW E HFq) as (Y & Z).
  apply assign_region_spec in E as (W1 & X1 & A1 & Z1 & L1 & K1 & S1 & _ & _); auto. 2:{ apply Forall_forall. intros o Ho. apply HO1; auto. }
  assert (AL : alen s' = (alen s + length l)%nat) by (unfold alen; rewrite A1, app_length, map_length; auto).
  split; [|split; [auto|constructor]]. constructor; auto.
  - intros i Hi. apply S1 in Hi as [Hi|(o & Ho & Eo)]. { pose proof (i_in _ HI i Hi). lia. } pose proof (HO1 o Ho). lia.
  - intros i j Hi Hj Hij. apply S1 in Hi as [Hi|(o & Ho & Eo)]; apply S1 in Hj as [Hj|(o' & Ho' & Eo')].
    + apply (i_sp _ HI i j); auto.
    + pose proof (i_in _ HI i Hi). pose proof (HO1 o' Ho'). lia.
    + pose proof (i_in _ HI j Hj). pose proof (HO1 o Ho). lia.
    + specialize (HO2 o o' Ho Ho'). lia.
  - intros a b Hin. destruct (Y a b Hin) as [H|H]; auto. destruct (i_eq _ HI a b H). split; eapply cell_in_mono; eauto.
  - intros c a Hin. destruct (Z c a Hin) as [H|H]; auto. eapply cell_in_mono; eauto. eapply i_cst; eauto.
  - intros t a Hin. rewrite L1 in Hin. destruct (i_lk _ HI t a Hin) as [H1 H2]. rewrite (ext_tid _ _ X1), (ext_cid _ _ X1). split; auto. eapply av_in_mono; eauto.
Qed.
Lemma pres_region_last L l offs : incl (qavs l) L -> offs_ok (length l) offs -> pres L (assign_region_last l offs) (fun a => [a]).
Proof. intros. eapply pres_bind; [now apply pres_region|]. intros. apply pres_last. Qed.

Lemma inv_push_eq s a b : Inv s -> cell_in s a -> cell_in s b -> Inv (push_eq s (a, b)) /\ ext s (push_eq s (a, b)).
Proof.
  intros HI Ha Hb. destruct (push_eq_spec s a b (i_wf _ HI)) as (W & X & _). split; [|auto]. destruct HI. constructor; auto.
  cbn. intros x y [H|[[= <- <-]|[]]]%in_app_or; auto. eapply i_eq0; eauto.
Qed.
Lemma pres_smart L l offs eqs : incl (qavs l) L -> offs_ok (length l) offs ->
  (forall e, In e eqs -> 0 <= fst e < Z.of_nat (length l) /\ 0 <= snd e < Z.of_nat (length l)) -> pres L (assign_region_smart l offs eqs) (fun _ => []).
Proof.
  intros HL HO HE s u s' HI HF E. unfold assign_region_smart in E. apply bind_inv in E as (row & s0 & H0 & E). unfold ctx_len in H0. injection H0 as <- <-.
  apply bind_inv in E as (u1 & s1 & H1 & E). pose proof H1 as H1'. apply assign_region_spec in H1 as (W1 & X1 & A1 & Z1 & L1 & K1 & S1 & _ & _); [|apply (i_wf _ HI)|].
  2:{ apply Forall_forall. intros o Ho. apply HO; auto. }
  assert (AL : alen s1 = (alen s + length l)%nat) by (unfold alen; rewrite A1, app_length, map_length; auto).
  destruct (pres_region L l offs HL HO s u1 s1 HI HF H1') as (I1 & _ & _). clear H1'.
  apply bind_inv in E as (w & s2 & H2 & E). unfold ctx_wgo in H2. injection H2 as <- <-. rewrite (wf_wgo _ W1) in E.
  assert (G : Inv s' /\ ext s1 s').
  { clear -HE E I1 AL. assert (AL' : (alen s + length l <= alen s1)%nat) by lia. clear AL. revert s1 I1 AL' E. induction eqs as [|[i j] eqs IH]; intros s1 I1 AL E; cbn [iterM] in E.
    - inversion E; subst. split; auto. apply ext_refl.
    - apply bind_inv in E as (u2 & s2 & E1 & E2). unfold push_eq_offs in E1. cbn [fst snd] in E1. pose proof (HE (i, j) (or_introl eq_refl)) as Hij. cbn [fst snd] in Hij.
      destruct (_ || _); [discriminate|]. injection E1 as <- <-.
      destruct (inv_push_eq s1 (cl s1 (Z.to_nat (Z.of_nat (alen s) + i))) (cl s1 (Z.to_nat (Z.of_nat (alen s) + j)))) as [I2 X2]; auto.
      { eexists; split; [reflexivity|]. lia. } { eexists; split; [reflexivity|]. lia. }
      destruct (IH (fun e He => HE e (or_intror He)) _ I2 AL E2) as [I3 X3]. split; auto. eapply ext_trans; eauto. }
  destruct G as [G1 G2]. split; auto. split; [eapply ext_trans; eauto|constructor].
Qed.

Lemma pres_constrain_equal L a b : In a L -> In b L -> pres L (constrain_equal a b) (fun _ => []).
Proof.
  intros Ha Hb s u s' HI HF E. unfold constrain_equal in E. rewrite (wf_wgo _ (i_wf _ HI)) in E. rewrite Forall_forall in HF.
  destruct (av_cell a) as [x|] eqn:Ex; [|discriminate]. destruct (av_cell b) as [y|] eqn:Ey; [|discriminate]. injection E as <- <-.
  destruct (inv_push_eq s x y HI) as [I1 X1]; eauto using av_in_cell.
Qed.
Lemma pres_assert_is_const L a c : In a L -> pres L (assert_is_const a c) (fun _ => []).
Proof.
  intros Ha s u s' HI HF E. unfold assert_is_const in E. rewrite (wf_wgo _ (i_wf _ HI)) in E. rewrite Forall_forall in HF.
  destruct (av_cell a) as [x|] eqn:Ex; [|discriminate]. injection E as <- <-. destruct (push_const_spec s c x (i_wf _ HI)) as (W & X & _).
  split; [|split; auto]. pose proof HI as HI'. destruct HI. constructor; auto.
  cbn. intros c' y [H|[[= <- <-]|[]]]%in_app_or; eauto using av_in_cell.
Qed.
Lemma pres_lookup L a : In a L -> pres L (add_cell_to_lookup a) (fun _ => []).
Proof.
  intros Ha s u s' HI HF [= <- <-]. rewrite Forall_forall in HF. destruct (push_lookup_spec s (s_tid s, s_cid s) a (i_wf _ HI)) as (W & X & _).
  split; [|split; auto]. destruct HI. constructor; auto. cbn. intros t y [H|[[= <- <-]|[]]]%in_app_or.
  - destruct (i_lk0 _ _ H). split; auto.
  - split; auto. exact (HF a Ha).
Qed.
Lemma load_region (q : qc) s : wgo s = false ->
  bind (assign_cell q) (fun _ => bind ctx_wgo (fun wg => bind (if wg then ret tt else resize_selector) (fun _ => ctx_last))) s = bind (assign_region [q] []) (fun _ => ctx_last) s.
Proof.
  intros W. unfold assign_region, bind, ctx_wgo, ctx_len. rewrite W. cbn [iterM]. unfold bind.
  destruct (assign_cell q s) as [[u1 s1]|] eqn:E; [|reflexivity]. pose proof (assign_cell_keygen _ _ _ _ W E) as (E1 & C1 & -> & _). reflexivity.
Qed.
Lemma offs_ok_nil n : offs_ok n [].
Proof. split; cbn; intros; contradiction. Qed.
Lemma pres_load L (q : qc) : incl (qav q) L ->
  pres L (assign_cell q ;;; wg <- ctx_wgo ;; (if wg then ret tt else resize_selector) ;;; ctx_last) (fun a => [a]).
Proof.
  intros HL s a s' HI HF E. rewrite load_region in E by apply (wf_wgo _ (i_wf _ HI)). revert E.
  apply (pres_bind L (assign_region [q] []) (fun _ => ctx_last) (fun _ => []) (fun a => [a])); auto.
  - apply pres_region; [|apply offs_ok_nil]. cbn. now rewrite app_nil_r.
  - intros. apply pres_last.
Qed.
Lemma pres_load_witness L w : pres L (load_witness w) (fun a => [a]).
Proof. apply (pres_load L (Witness w)). intros ? []. Qed.
Lemma pres_load_constant L c : pres L (load_constant c) (fun a => [a]).
Proof. apply (pres_load L (Constant c)). intros ? []. Qed.
Lemma pres_load_constants L cs : pres L (load_constants cs) (fun l => l).
Proof. eapply pres_weaken; [apply pres_mapM; intros; apply pres_load_constant|apply incl_refl|]. intros l x Hx. apply in_flat_map. exists x. cbn. auto. Qed.
Lemma pres_load_zero L : pres L load_zero (fun a => [a]).
Proof.
  intros s a s' HI HF E. pose proof (i_wf _ HI) as HW. destruct (load_zero_spec s a s' HW E) as (W' & X' & _).
  unfold load_zero in E. destruct (zero_cell s) as [z|] eqn:Ez.
  - injection E as <- <-. split; auto. split; auto. repeat constructor. pose proof (wf_zero _ HW) as Z. unfold zero_wf in Z. rewrite Ez in Z. apply Z.
  - apply bind_inv in E as (z & s1 & E1 & [= <- <-]). destruct (pres_load_constant L F0 s z s1 HI HF E1) as (I1 & X1 & F1).
    split; [|split; [auto|]]. { destruct I1. constructor; auto. } { exact F1. }
Qed.
Lemma pres_assign_witnesses L ws : pres L (assign_witnesses ws) (fun l => l).
Proof.
  unfold assign_witnesses. eapply pres_bind; [apply pres_len|]. intros row. cbn [app]. eapply pres_bind.
  { apply pres_region; [|apply offs_ok_nil]. intros x Hx. apply in_flat_map in Hx as (q & Hq & Hx). apply in_map_iff in Hq as (w & <- & _). destruct Hx. }
  intros _ s r s' HI HF [= <- <-]. split; auto. split; [apply ext_refl|]. apply Forall_forall. intros a Ha. apply in_map_iff in Ha as ([i v] & <- & Hin).
  exists (row + i)%nat. unfold mk_av. rewrite (wf_wgo _ (i_wf _ HI)). cbn. split; auto.
  assert (G : forall k (l : list (Assigned p)) n, In (i, v) (combine (seq k n) l) -> nth_error l (i - k) = Some v /\ (k <= i)%nat).
  { clear. intros k l. revert k. induction l as [|x l IH]; intros k [|n] H; cbn in H; try contradiction. destruct H as [[= <- <-]|H].
    - rewrite Nat.sub_diag. cbn. auto.
    - apply IH in H as [H1 H2]. split; [|lia]. replace (i - k)%nat with (S (i - S k)) by lia. exact H1. }
  apply G in Hin as [Hin _]. rewrite Nat.sub_0_r in Hin. clear -Hin. revert Hin. generalize (advice s). clear.
  induction row as [|n IH]; intros l H; cbn in *; auto. destruct l; cbn in *; auto. destruct i; discriminate.
Qed.
End Pres.
