(** Basic facts about the context model: monotonicity, exact meaning of [assign_region]. *)
From Coq Require Import ZArith Lia List Bool.
From Verif Require Import Field Context.
Import ListNotations.
Local Open Scope Z_scope.

Section Proofs.
Context {p : positive}.
Notation Fp := (F p).
Implicit Types (s : st p) (q : qcell p).

(** [s'] extends [s]: nothing recorded in [s] is lost or moved *)
Record ext (s s' : st p) : Prop := mkExt {
  ext_wgo : wgo s' = wgo s; ext_phase : s_phase s' = s_phase s;
  ext_tid : s_tid s' = s_tid s; ext_cid : s_cid s' = s_cid s;
  ext_adv : exists l, advice s' = advice s ++ l;
  ext_sel : forall i, nth_error (selector s) i = Some true -> nth_error (selector s') i = Some true;
  ext_eqs : exists l, adv_eqs s' = adv_eqs s ++ l;
  ext_con : exists l, const_eqs s' = const_eqs s ++ l;
  ext_lk : exists l, lookups s' = lookups s ++ l }.

Lemma ext_refl s : ext s s.
Proof. constructor; auto; exists []; now rewrite app_nil_r. Qed.

Lemma ext_trans s1 s2 s3 : ext s1 s2 -> ext s2 s3 -> ext s1 s3.
Proof.
  intros [A1 A2 A3 A4 [l1 A5] A6 [l2 A7] [l3 A8] [l4 A9]] [B1 B2 B3 B4 [m1 B5] B6 [m2 B7] [m3 B8] [m4 B9]].
  constructor; try congruence; auto; eexists.
  - rewrite B5, A5, <- app_assoc; reflexivity.
  - rewrite B7, A7, <- app_assoc; reflexivity.
  - rewrite B8, A8, <- app_assoc; reflexivity.
  - rewrite B9, A9, <- app_assoc; reflexivity.
Qed.

Lemma ext_cl s s' i : ext s s' -> cl s' i = cl s i.
Proof. intros E. unfold cl. now rewrite (ext_tid _ _ E), (ext_cid _ _ E). Qed.

Lemma ext_gate s s' sg i : ext s s' -> gate_at sg s' i <-> gate_at sg s i.
Proof. intros E. unfold gate_at. now rewrite !(ext_cl _ _ _ E). Qed.

Lemma sat_mono lb sg s s' : ext s s' -> Sat lb sg s' -> Sat lb sg s.
Proof.
  intros E [S1 S2 S3 S4]. constructor; intros.
  - apply (ext_gate _ _ _ _ E). apply S1. now apply (ext_sel _ _ E).
  - apply S2. destruct (ext_eqs _ _ E) as [l ->]. apply in_or_app; auto.
  - apply S3. destruct (ext_con _ _ E) as [l ->]. apply in_or_app; auto.
  - destruct (ext_lk _ _ E) as [l HL]. apply (S4 t a). rewrite HL. apply in_or_app; auto.
Qed.

Lemma agree_mono rho s s' : ext s s' -> Agree rho s' -> Agree rho s.
Proof.
  intros E A i v H. rewrite <- (ext_cl _ _ _ E). apply A.
  destruct (ext_adv _ _ E) as [l ->]. rewrite nth_error_app1; auto.
  apply nth_error_Some. congruence.
Qed.

(** an assigned value that lives in this context *)
Definition av_in s (a : AV p) : Prop :=
  exists i, av_cell a = Some (cl s i) /\ nth_error (advice s) i = Some (av_val a).

Lemma av_in_mono s s' a : ext s s' -> av_in s a -> av_in s' a.
Proof.
  intros E (i & H1 & H2). exists i. rewrite (ext_cl _ _ _ E). split; auto.
  destruct (ext_adv _ _ E) as [l ->]. rewrite nth_error_app1; auto.
  apply nth_error_Some. congruence.
Qed.

Lemma av_in_ok s a rho : av_in s a -> Agree rho s -> av_ok rho a.
Proof.
  intros (i & H1 & H2) A. split; [congruence|].
  unfold avs. rewrite H1. now apply A.
Qed.

(** reachable-state invariant in keygen mode *)
Definition zero_wf s : Prop :=
  match zero_cell s with
  | None => True
  | Some z => av_in s z /\ av_val z = ATriv F0 /\
              exists c, av_cell z = Some c /\ In (F0, c) (const_eqs s)
  end.
Record wf s : Prop := mkWf {
  wf_wgo : wgo s = false;
  wf_len : length (selector s) = length (advice s);
  wf_zero : zero_wf s }.

Lemma wf_new phase tid cid : wf (new_ctx (p:=p) false phase tid cid).
Proof. constructor; auto. exact I. Qed.

Lemma zero_wf_mono s s' : zero_cell s' = zero_cell s -> ext s s' -> zero_wf s -> zero_wf s'.
Proof.
  intros Z E. unfold zero_wf. rewrite Z. destruct (zero_cell s) as [z|]; auto.
  intros (H1 & H2 & c & H3 & H4). split; [eauto using av_in_mono|]. split; auto.
  exists c; split; auto. destruct (ext_con _ _ E) as [l ->]. apply in_or_app; auto.
Qed.

(** ** inversion of the monad *)
Lemma bind_inv {A B} (m : M p A) (f : A -> M p B) s (b : B) s2 :
  bind m f s = Some (b, s2) -> exists a s1, m s = Some (a, s1) /\ f a s1 = Some (b, s2).
Proof. unfold bind. destruct (m s) as [[a s1]|]; [eauto|discriminate]. Qed.

Lemma lift_inv {A} (o : option A) s (a : A) s' : lift o s = Some (a, s') -> o = Some a /\ s' = s.
Proof. unfold lift. destruct o; [|discriminate]. intros H; injection H as <- <-; auto. Qed.

Lemma assert_inv c s u s' : assert_ (p:=p) c s = Some (u, s') -> c = true /\ s' = s.
Proof. destruct c; simpl; [|discriminate]. intros H; injection H as <- <-; auto. Qed.

(** ** assign_cell *)
Definition qadv (q : qcell p) : Assigned p :=
  match q with
  | Existing a => av_val a | Witness w => ATriv w | WitnessFraction w => w | Constant c => ATriv c
  end.
Definition q_cell_ok (q : qcell p) : Prop :=
  match q with Existing a => av_cell a <> None | _ => True end.

Lemma latest_push s v : latest_cell (push_advice s v) = cl s (alen s).
Proof.
  unfold latest_cell, push_advice, alen, cl; simpl. rewrite app_length; simpl.
  f_equal. lia.
Qed.

(** exact effect of assigning one cell in keygen mode *)
Lemma assign_cell_keygen q s u s' : wgo s = false -> assign_cell q s = Some (u, s') ->
  exists E C, s' = mkSt false (s_phase s) (s_tid s) (s_cid s) (advice s ++ [qadv q]) (zero_cell s) (selector s)
                   (adv_eqs s ++ E) (const_eqs s ++ C) (lookups s) /\
    (forall sg, (forall a b, In (a, b) E -> sg a = sg b) /\ (forall c a, In (c, a) C -> sg a = c) <->
                qsem sg q (sg (cl s (alen s)))) /\ q_cell_ok q.
Proof.
  intros W H. unfold assign_cell in H. rewrite W in H.
  destruct q as [a|w|w|c].
  - destruct (av_cell a) as [c|] eqn:Ec; [|discriminate]. injection H as <- <-.
    rewrite latest_push. exists [(cl s (alen s), c)], []. split; [|split].
    + unfold push_eq, push_advice, set_advice; simpl. now rewrite W, app_nil_r.
    + intros sg. unfold qsem, avs. rewrite Ec. split.
      * intros [H _]. apply H. now left.
      * intros H. split; intros ? ? Hin; [|destruct Hin].
        destruct Hin as [Hin|[]]. injection Hin as <- <-. exact H.
    + simpl. congruence.
  - injection H as <- <-. exists [], []. split; [|split; [|exact I]].
    + unfold push_advice, set_advice; simpl. now rewrite W, !app_nil_r.
    + intros; simpl. split; auto. intros; split; intros ? ? [].
  - injection H as <- <-. exists [], []. split; [|split; [|exact I]].
    + unfold push_advice, set_advice; simpl. now rewrite W, !app_nil_r.
    + intros; simpl. split; auto. intros; split; intros ? ? [].
  - injection H as <- <-. rewrite latest_push.
    exists [], [(c, cl s (alen s))]. split; [|split; [|exact I]].
    + unfold push_const, push_advice, set_advice; simpl. now rewrite W, app_nil_r.
    + intros sg. unfold qsem. split.
      * intros [_ H]. apply H. now left.
      * intros H. split; intros ? ? Hin; [destruct Hin|].
        destruct Hin as [Hin|[]]. injection Hin as <- <-. exact H.
Qed.

Lemma iter_assign_keygen l : forall s u s', wgo s = false -> iterM assign_cell l s = Some (u, s') ->
  exists E C, s' = mkSt false (s_phase s) (s_tid s) (s_cid s) (advice s ++ map qadv l) (zero_cell s) (selector s)
                   (adv_eqs s ++ E) (const_eqs s ++ C) (lookups s) /\
    (forall sg, (forall a b, In (a, b) E -> sg a = sg b) /\ (forall c a, In (c, a) C -> sg a = c) <->
                (forall i q, nth_error l i = Some q -> qsem sg q (sg (cl s (alen s + i))))) /\
    Forall q_cell_ok l.
Proof.
  induction l as [|q l IH]; intros s u s' W H.
  - simpl in H. injection H as <- <-. exists [], []. split; [|split].
    + simpl. rewrite !app_nil_r. rewrite <- W. now destruct s.
    + intros; split; [|intros; split; intros ? ? []]. intros _ i q Hn. destruct i; discriminate.
    + constructor.
  - cbn [iterM] in H. apply bind_inv in H as (u1 & s1 & H1 & H2).
    apply assign_cell_keygen in H1 as (E1 & C1 & -> & Q1 & K1); auto.
    apply IH in H2 as (E2 & C2 & -> & Q2 & K2); [|reflexivity].
    exists (E1 ++ E2), (C1 ++ C2). split; [|split; [|now constructor]].
    + simpl. now rewrite <- !app_assoc.
    + intros sg. specialize (Q1 sg). specialize (Q2 sg).
      assert (Hs : forall i, sg (cl {| wgo := false; s_phase := s_phase s; s_tid := s_tid s; s_cid := s_cid s;
           advice := advice s ++ [qadv q]; zero_cell := zero_cell s; selector := selector s;
           adv_eqs := adv_eqs s ++ E1; const_eqs := const_eqs s ++ C1; lookups := lookups s |}
           (alen {| wgo := false; s_phase := s_phase s; s_tid := s_tid s; s_cid := s_cid s;
           advice := advice s ++ [qadv q]; zero_cell := zero_cell s; selector := selector s;
           adv_eqs := adv_eqs s ++ E1; const_eqs := const_eqs s ++ C1; lookups := lookups s |} + i)) = sg (cl s (alen s + S i))).
      { intros i. unfold cl, alen; simpl. rewrite app_length; simpl. f_equal. f_equal. lia. }
      split.
      * intros [HE HC] i x Hn.
        destruct i as [|i].
        -- simpl in Hn. injection Hn as <-. rewrite Nat.add_0_r. apply Q1.
           split; intros; [apply HE|apply HC]; apply in_or_app; auto.
        -- simpl in Hn. rewrite <- Hs. apply Q2; auto.
           split; intros; [apply HE|apply HC]; apply in_or_app; auto.
      * intros HA.
        assert (X1 : qsem sg q (sg (cl s (alen s)))).
        { specialize (HA O q eq_refl). now rewrite Nat.add_0_r in HA. }
        apply Q1 in X1 as [XE XC].
        assert (X2 : forall i x, nth_error l i = Some x -> qsem sg x (sg (cl s (alen s + S i)))).
        { intros i x Hn. apply HA. exact Hn. }
        destruct Q2 as [_ Q2]. destruct Q2 as [YE YC].
        { intros. rewrite Hs. auto. }
        split; intros ? ? Hin; apply in_app_or in Hin as [Hin|Hin]; eauto.
Qed.

Lemma iter_assign_total l : forall s, wgo s = false -> Forall q_cell_ok l ->
  exists s', iterM assign_cell l s = Some (tt, s').
Proof.
  induction l as [|q l IH]; intros s W HF.
  - exists s; reflexivity.
  - inversion HF as [|? ? Hq Hl]; subst. cbn [iterM]. unfold bind.
    assert (exists s1, assign_cell q s = Some (tt, s1) /\ wgo s1 = false) as (s1 & -> & W1).
    { unfold assign_cell. rewrite W. destruct q as [a|w|w|c]; simpl in *.
      - destruct (av_cell a); [|congruence]. eexists; split; [reflexivity|exact W].
      - eexists; split; [reflexivity|exact W].
      - eexists; split; [reflexivity|exact W].
      - eexists; split; [reflexivity|exact W]. }
    now apply IH.
Qed.

(** ** selectors *)
Lemma resize_same (l : list bool) n : (length l <= n)%nat -> resize l n = l ++ repeat false (n - length l).
Proof. intros. unfold resize. rewrite firstn_all2; auto. Qed.

Lemma set_true_spec l : forall i l', set_true l i = Some l' ->
  length l' = length l /\ (i < length l)%nat /\
  forall j, nth_error l' j = Some true <-> nth_error l j = Some true \/ j = i.
Proof.
  induction l as [|b l IH]; intros i l' H; [destruct i; discriminate|].
  destruct i as [|i]; simpl in H.
  - injection H as <-. split; [reflexivity|]. split; [simpl; lia|].
    intros [|j]; simpl; split; auto; intros [?|?]; auto; try lia.
  - destruct (set_true l i) as [l1|] eqn:E; [|discriminate]. injection H as <-.
    apply IH in E as (H1 & H2 & H3). split; [simpl; lia|]. split; [simpl; lia|].
    intros [|j]; simpl.
    + split; auto. intros [?|?]; auto; lia.
    + rewrite H3. split; intros [?|?]; auto; right; lia.
Qed.

Lemma set_true_total l i : (i < length l)%nat -> exists l', set_true l i = Some l'.
Proof.
  revert i. induction l as [|b l IH]; intros i H; [simpl in H; lia|].
  destruct i as [|i]; simpl; [eauto|].
  destruct (IH i) as [l' ->]; [simpl in H; lia|eauto].
Qed.

Lemma enable_gates_spec row offs : forall s u s', iterM (enable_gate row) offs s = Some (u, s') ->
  exists l, s' = set_selector s l /\ length l = length (selector s) /\
   (forall o, In o offs -> 0 <= Z.of_nat row + o < Z.of_nat (length l)) /\
   forall j, nth_error l j = Some true <->
     nth_error (selector s) j = Some true \/ exists o, In o offs /\ Z.of_nat j = Z.of_nat row + o.
Proof.
  induction offs as [|o offs IH]; intros s u s' H.
  - simpl in H. injection H as <- <-. exists (selector s). split; [now destruct s|].
    split; auto. split; [intros o []|]. intros j. split; auto. intros [?|(o & [] & _)]; auto.
  - cbn [iterM] in H. apply bind_inv in H as (u1 & s1 & H1 & H2).
    unfold enable_gate in H1. destruct (Z.ltb_spec (Z.of_nat row + o) 0) as [|Hge]; [discriminate|].
    destruct (set_true (selector s) (Z.to_nat (Z.of_nat row + o))) as [l1|] eqn:E; [|discriminate].
    injection H1 as <- <-.
    apply set_true_spec in E as (L1 & L2 & L3).
    apply IH in H2 as (l2 & -> & M1 & M2 & M3). cbn [selector set_selector] in *.
    exists l2. split; [now destruct s|]. split; [lia|]. split.
    + intros o' [<-|Ho]; [lia|auto].
    + intros j. rewrite M3, L3. split.
      * intros [[?|?]|(o' & ? & ?)]; auto; right; [exists o|exists o']; split; simpl; auto; lia.
      * intros [?|(o' & [<-|?] & ?)]; auto; [left; right; lia|right; exists o'; auto].
Qed.

Lemma enable_gates_total row offs : forall s,
  (forall o, In o offs -> 0 <= Z.of_nat row + o < Z.of_nat (length (selector s))) ->
  exists s', iterM (enable_gate row) offs s = Some (tt, s').
Proof.
  induction offs as [|o offs IH]; intros s H.
  - exists s; reflexivity.
  - cbn [iterM]. unfold bind, enable_gate at 1.
    destruct (Z.ltb_spec (Z.of_nat row + o) 0) as [Hl|Hl].
    { specialize (H o (or_introl eq_refl)); lia. }
    destruct (set_true_total (selector s) (Z.to_nat (Z.of_nat row + o))) as [l1 E].
    { specialize (H o (or_introl eq_refl)); lia. }
    rewrite E. apply IH. intros o' Ho. cbn [selector set_selector].
    apply set_true_spec in E as (-> & _). apply H. now right.
Qed.

(** ** exact meaning of [assign_region] *)
(** [v k] is the value of the k-th cell of the new region *)
Definition region_sem (sg : cell -> Fp) (v : nat -> Fp) (l : list (qcell p)) (offs : list Z) : Prop :=
  (forall i q, nth_error l i = Some q -> qsem sg q (v i)) /\
  (forall k, In (Z.of_nat k) offs -> (v k + v (k + 1)%nat * v (k + 2)%nat)%F = v (k + 3)%nat).

(** value of the k-th cell after offset row *)
Definition rv (sg : cell -> Fp) (s : st p) (k : nat) : Fp := sg (cl s (alen s + k)).

Lemma assign_region_spec l offs s u s' :
  wf s -> Forall (fun o => 0 <= o) offs -> assign_region l offs s = Some (u, s') ->
  wf s' /\ ext s s' /\ advice s' = advice s ++ map qadv l /\ zero_cell s' = zero_cell s /\ lookups s' = lookups s /\
  Forall q_cell_ok l /\
  (forall i, nth_error (selector s') i = Some true <->
       nth_error (selector s) i = Some true \/ exists o, In o offs /\ Z.of_nat i = Z.of_nat (alen s) + o) /\
  (forall o, In o offs -> o < Z.of_nat (length l)) /\
  forall lb sg, Sat lb sg s' <-> Sat lb sg s /\ region_sem sg (rv sg s) l offs.
Proof.
  intros [W WL WZ] Hoff H. unfold assign_region in H.
  apply bind_inv in H as (w & s0 & H0 & H). unfold ctx_wgo in H0. injection H0 as <- <-. rewrite W in H.
  apply bind_inv in H as (row & s0 & H0 & H). unfold ctx_len in H0. injection H0 as <- <-.
  apply bind_inv in H as (u1 & s1 & H1 & H).
  apply bind_inv in H as (u2 & s2 & H2 & H).
  apply iter_assign_keygen in H1 as (E & C & -> & HQ & HF); auto.
  unfold resize_selector in H2. injection H2 as <- <-.
  apply enable_gates_spec in H as (sel & -> & L1 & L2 & L3).
  cbn [selector set_selector advice alen s_phase s_tid s_cid wgo adv_eqs const_eqs lookups zero_cell] in *.
  assert (HR : resize (selector s) (alen {| wgo := false; s_phase := s_phase s; s_tid := s_tid s; s_cid := s_cid s;
       advice := advice s ++ map qadv l; zero_cell := zero_cell s; selector := selector s;
       adv_eqs := adv_eqs s ++ E; const_eqs := const_eqs s ++ C; lookups := lookups s |})
       = selector s ++ repeat false (length l)).
  { rewrite resize_same; unfold alen; cbn [advice]; rewrite app_length, map_length, WL; [|lia].
    f_equal. f_equal. lia. }
  rewrite HR in *. clear HR.
  assert (Hselnew : forall j, nth_error (selector s ++ repeat false (length l)) j = Some true <-> nth_error (selector s) j = Some true).
  { intros j. destruct (lt_dec j (length (selector s))) as [Hj|Hj].
    - rewrite nth_error_app1; auto. reflexivity.
    - rewrite nth_error_app2 by lia. split; intros Hn.
      + apply nth_error_In, repeat_spec in Hn. discriminate.
      + apply nth_error_None in Hj || idtac. assert (nth_error (selector s) j = None) by (apply nth_error_None; lia). congruence. }
  assert (Hsel : forall j, nth_error sel j = Some true <->
       nth_error (selector s) j = Some true \/ exists o, In o offs /\ Z.of_nat j = Z.of_nat (alen s) + o).
  { intros j. rewrite L3, Hselnew. reflexivity. }
  match goal with |- wf ?x /\ _ => set (s' := x) end.
  assert (HE : ext s s').
  { constructor; cbn; auto; try (eexists; reflexivity).
    - intros i Hi. apply Hsel; auto.
    - exists []. now rewrite app_nil_r. }
  assert (Hlen : length sel = length (advice s ++ map qadv l)).
  { rewrite L1, !app_length, repeat_length, map_length. lia. }
  split; [|split; [exact HE|split; [reflexivity|split; [reflexivity|split; [reflexivity|split; [exact HF|split; [exact Hsel|split]]]]]]].
  - constructor; cbn; auto. apply (zero_wf_mono s); auto.
  - intros o Ho. specialize (L2 o Ho). rewrite L1, app_length, repeat_length, WL in L2. unfold alen in L2. lia.
  - intros lb sg. unfold region_sem.
    split.
    + intros HS. split; [eapply sat_mono; eauto|]. split.
      * apply HQ. destruct HS as [S1 S2 S3 S4]. cbn in *. split; intros; [apply S2|apply S3]; apply in_or_app; auto.
      * intros k Hk. unfold rv. destruct HS as [S1 _ _ _].
        assert (Hg : nth_error (selector s') (alen s + k) = Some true).
        { cbn. apply Hsel. right. exists (Z.of_nat k). split; auto. lia. }
        apply S1 in Hg. apply (ext_gate _ _ _ _ HE) in Hg. unfold gate_at in Hg.
        rewrite <- !Nat.add_assoc in Hg. exact Hg.
    + intros [HS [Hq Hg]]. apply HQ in Hq as [XE XC]. destruct HS as [S1 S2 S3 S4].
      constructor; cbn.
      * intros i Hi. apply (ext_gate _ _ _ _ HE). apply Hsel in Hi as [Hi|(o & Ho & Heq)]; auto.
        rewrite Forall_forall in Hoff. specialize (Hoff o Ho).
        specialize (Hg (Z.to_nat o)). rewrite Z2Nat.id in Hg by lia. specialize (Hg Ho).
        replace i with (alen s + Z.to_nat o)%nat by lia.
        unfold gate_at, rv in *. rewrite <- !Nat.add_assoc. exact Hg.
      * intros a b Hin. apply in_app_or in Hin as [Hin|Hin]; auto.
      * intros a b Hin. apply in_app_or in Hin as [Hin|Hin]; auto.
      * auto.
Qed.

Lemma assign_region_total l offs s : wf s -> Forall q_cell_ok l ->
  (forall o, In o offs -> 0 <= o < Z.of_nat (length l)) ->
  exists s', assign_region l offs s = Some (tt, s').
Proof.
  intros [W WL WZ] HF HO. unfold assign_region, bind, ctx_wgo, ctx_len. rewrite W.
  destruct (iter_assign_total l s W HF) as [s1 E1]. rewrite E1.
  pose proof (iter_assign_keygen _ _ _ _ W E1) as (E & C & -> & _ & _).
  unfold resize_selector. apply enable_gates_total.
  intros o Ho. specialize (HO o Ho). cbn [selector set_selector].
  rewrite resize_same by (unfold alen; cbn; rewrite app_length; lia).
  unfold alen; cbn. rewrite app_length, repeat_length, !app_length, map_length. lia.
Qed.

(** ** get / last *)
Lemma ctx_get_spec o s a s' : ctx_get o s = Some (a, s') ->
  s' = s /\ exists i, (if o <? 0 then Z.of_nat (alen s) + o else o) = Z.of_nat i /\
    nth_error (advice s) i = Some (av_val a) /\ a = mk_av s (av_val a) i.
Proof.
  unfold ctx_get. set (z := if o <? 0 then _ else _).
  destruct (Z.ltb_spec z 0); [discriminate|].
  destruct (nth_error (advice s) (Z.to_nat z)) as [v|] eqn:E; [|discriminate].
  intros H'; injection H' as <- <-. split; auto. exists (Z.to_nat z). split; [lia|]. auto.
Qed.

Lemma ctx_last_get s : ctx_last s = ctx_get (-1) s.
Proof.
  unfold ctx_last, ctx_get. replace (-1 <? 0) with true by reflexivity.
  destruct (Z.ltb_spec (Z.of_nat (alen s) + -1) 0) as [H|H].
  - assert (alen s = 0)%nat by lia. unfold alen in *. destruct (advice s); [reflexivity|discriminate].
  - replace (Z.to_nat (Z.of_nat (alen s) + -1)) with (alen s - 1)%nat by lia. reflexivity.
Qed.

(** [get] on a state whose advice column ends with region [l] appended to that of [s0] *)
Lemma ctx_get_region s0 s l k a s' : wf s -> ext s0 s -> advice s = advice s0 ++ l ->
  (0 < k <= length l)%nat -> ctx_get (- Z.of_nat k) s = Some (a, s') ->
  s' = s /\ av_cell a = Some (cl s0 (alen s0 + (length l - k))) /\
  nth_error l (length l - k) = Some (av_val a) /\ av_in s a /\
  forall sg, avs sg a = rv sg s0 (length l - k).
Proof.
  intros [W _ _] E HA Hk H. apply ctx_get_spec in H as (-> & i & Hi & Hn & Ha).
  destruct (Z.ltb_spec (- Z.of_nat k) 0); [|lia].
  assert (i = (alen s0 + (length l - k))%nat).
  { unfold alen in *. rewrite HA, app_length in Hi. lia. }
  subst i. split; auto.
  assert (Hc : av_cell a = Some (cl s0 (alen s0 + (length l - k)))).
  { rewrite Ha. unfold mk_av; cbn. rewrite W. now rewrite (ext_cl _ _ _ E). }
  split; auto. split.
  - rewrite HA in Hn. rewrite nth_error_app2 in Hn by (unfold alen; lia).
    rewrite <- Hn. f_equal. unfold alen. lia.
  - split.
    + exists (alen s0 + (length l - k))%nat. rewrite (ext_cl _ _ _ E). auto.
    + intros sg. unfold avs. now rewrite Hc.
Qed.

Lemma ctx_get_region_total s0 s l k : advice s = advice s0 ++ l ->
  (0 < k <= length l)%nat -> exists a, ctx_get (- Z.of_nat k) s = Some (a, s).
Proof.
  intros HA Hk. unfold ctx_get.
  destruct (Z.ltb_spec (- Z.of_nat k) 0); [|lia].
  unfold alen. rewrite HA, app_length.
  destruct (Z.ltb_spec (Z.of_nat (length (advice s0) + length l) + - Z.of_nat k) 0); [lia|].
  destruct (nth_error (advice s0 ++ l) _) eqn:E; [eauto|].
  apply nth_error_None in E. rewrite app_length in E. lia.
Qed.

Lemma ctx_get_abs s i a s' : wf s -> ctx_get (Z.of_nat i) s = Some (a, s') ->
  s' = s /\ av_cell a = Some (cl s i) /\ nth_error (advice s) i = Some (av_val a) /\ av_in s a.
Proof.
  intros [W _ _] H. apply ctx_get_spec in H as (-> & j & Hj & Hn & Ha).
  destruct (Z.ltb_spec (Z.of_nat i) 0); [lia|]. assert (j = i) by lia. subst j.
  assert (av_cell a = Some (cl s i)) by (rewrite Ha; unfold mk_av; cbn; now rewrite W).
  repeat split; auto. exists i; auto.
Qed.
Lemma ctx_get_abs_total s i : (i < alen s)%nat -> exists a, ctx_get (Z.of_nat i) s = Some (a, s).
Proof.
  intros H. unfold ctx_get. destruct (Z.ltb_spec (Z.of_nat i) 0); [lia|].
  destruct (Z.ltb_spec (Z.of_nat i) 0); [lia|]. rewrite Nat2Z.id.
  destruct (nth_error (advice s) i) eqn:E; [eauto|]. apply nth_error_None in E. unfold alen in H; lia.
Qed.

(** ** constraints without cells *)
Lemma push_eq_spec s x y : wf s -> wf (push_eq s (x, y)) /\ ext s (push_eq s (x, y)) /\
  forall lb sg, Sat lb sg (push_eq s (x, y)) <-> Sat lb sg s /\ sg x = sg y.
Proof.
  intros [W WL WZ].
  assert (HE : ext s (push_eq s (x, y))).
  { constructor; cbn; auto; try (exists []; now rewrite app_nil_r); eauto. }
  split; [constructor; cbn; auto; apply (zero_wf_mono s); auto|]. split; auto.
  intros lb sg. split.
  - intros HS. split; [eapply sat_mono; eauto|]. apply (sat_eq _ _ _ HS). cbn. apply in_or_app; right; now left.
  - intros [[S1 S2 S3 S4] Hxy]. constructor; cbn; auto.
    intros a b Hin. apply in_app_or in Hin as [?|[Hin|[]]]; auto. now injection Hin as <- <-.
Qed.

Lemma push_const_spec s c x : wf s -> wf (push_const s (c, x)) /\ ext s (push_const s (c, x)) /\
  forall lb sg, Sat lb sg (push_const s (c, x)) <-> Sat lb sg s /\ sg x = c.
Proof.
  intros [W WL WZ].
  assert (HE : ext s (push_const s (c, x))).
  { constructor; cbn; auto; try (exists []; now rewrite app_nil_r); eauto. }
  split; [constructor; cbn; auto; apply (zero_wf_mono s); auto|]. split; auto.
  intros lb sg. split.
  - intros HS. split; [eapply sat_mono; eauto|]. apply (sat_const _ _ _ HS). cbn. apply in_or_app; right; now left.
  - intros [[S1 S2 S3 S4] Hxy]. constructor; cbn; auto.
    intros a b Hin. apply in_app_or in Hin as [?|[Hin|[]]]; auto. now injection Hin as <- <-.
Qed.

Lemma push_lookup_spec s t x : wf s -> wf (push_lookup s (t, x)) /\ ext s (push_lookup s (t, x)) /\
  forall lb sg, Sat lb sg (push_lookup s (t, x)) <-> Sat lb sg s /\ 0 <= val (avs sg x) < 2 ^ Z.of_nat lb.
Proof.
  intros [W WL WZ].
  assert (HE : ext s (push_lookup s (t, x))).
  { constructor; cbn; auto; try (exists []; now rewrite app_nil_r); eauto. }
  split; [constructor; cbn; auto; apply (zero_wf_mono s); auto|]. split; auto.
  intros lb sg. split.
  - intros HS. split; [eapply sat_mono; eauto|].
    apply (sat_lookup _ _ _ HS t). cbn. apply in_or_app; right; now left.
  - intros [[S1 S2 S3 S4] Hxy]. constructor; cbn; auto.
    intros t' b Hin. apply in_app_or in Hin as [?|[Hin|[]]]; eauto. injection Hin as <- <-. auto.
Qed.

Lemma constrain_equal_spec a b s u s' : wf s -> constrain_equal a b s = Some (u, s') ->
  wf s' /\ ext s s' /\ advice s' = advice s /\
  forall lb sg, Sat lb sg s' <-> Sat lb sg s /\ avs sg a = avs sg b.
Proof.
  intros HW H. unfold constrain_equal in H. rewrite (wf_wgo _ HW) in H.
  destruct (av_cell a) as [x|] eqn:Ea; [|discriminate].
  destruct (av_cell b) as [y|] eqn:Eb; [|discriminate]. injection H as <- <-.
  destruct (push_eq_spec s x y HW) as (H1 & H2 & H3). split; auto. split; auto. split; auto.
  intros. unfold avs. rewrite Ea, Eb. apply H3.
Qed.
Lemma constrain_equal_total a b s : wf s -> av_cell a <> None -> av_cell b <> None ->
  exists s', constrain_equal a b s = Some (tt, s').
Proof.
  intros [W _ _] Ha Hb. unfold constrain_equal. rewrite W.
  destruct (av_cell a), (av_cell b); try congruence. eauto.
Qed.

Lemma assert_is_const_spec a c s u s' : wf s -> assert_is_const a c s = Some (u, s') ->
  wf s' /\ ext s s' /\ advice s' = advice s /\
  forall lb sg, Sat lb sg s' <-> Sat lb sg s /\ avs sg a = c.
Proof.
  intros HW H. unfold assert_is_const in H. rewrite (wf_wgo _ HW) in H.
  destruct (av_cell a) as [x|] eqn:Ea; [|discriminate]. injection H as <- <-.
  destruct (push_const_spec s c x HW) as (H1 & H2 & H3). split; auto. split; auto. split; auto.
  intros. unfold avs. rewrite Ea. apply H3.
Qed.
Lemma assert_is_const_total a c s : wf s -> av_cell a <> None ->
  exists s', assert_is_const a c s = Some (tt, s').
Proof.
  intros [W _ _] Ha. unfold assert_is_const. rewrite W. destruct (av_cell a); try congruence. eauto.
Qed.

Lemma add_cell_to_lookup_spec a s u s' : wf s -> add_cell_to_lookup a s = Some (u, s') ->
  wf s' /\ ext s s' /\ advice s' = advice s /\
  forall lb sg, Sat lb sg s' <-> Sat lb sg s /\ 0 <= val (avs sg a) < 2 ^ Z.of_nat lb.
Proof.
  intros HW H. unfold add_cell_to_lookup in H. injection H as <- <-.
  destruct (push_lookup_spec s (s_tid s, s_cid s) a HW) as (H1 & H2 & H3). split; auto.
Qed.
Lemma add_cell_to_lookup_total a s : exists s', add_cell_to_lookup a s = Some (tt, s').
Proof. unfold add_cell_to_lookup. eauto. Qed.

(** ** assign_region_smart *)
Lemma push_eq_offs_iter row eqs : forall s u s', wf s ->
  Forall (fun e : Z * Z => 0 <= fst e /\ 0 <= snd e) eqs ->
  iterM (push_eq_offs row) eqs s = Some (u, s') ->
  wf s' /\ ext s s' /\ advice s' = advice s /\ zero_cell s' = zero_cell s /\ lookups s' = lookups s /\ selector s' = selector s /\
  forall lb sg, Sat lb sg s' <-> Sat lb sg s /\
    forall i j, In (Z.of_nat i, Z.of_nat j) eqs -> sg (cl s (row + i)) = sg (cl s (row + j)).
Proof.
  induction eqs as [|[i j] eqs IH]; intros s u s' HW HF H.
  - simpl in H. injection H as <- <-. split; auto. split; [apply ext_refl|]. do 4 (split; [reflexivity|]).
    intros lb sg; split; [intros; split; [assumption|intros ? ? []] | now intros [? _]].
  - cbn [iterM] in H. apply bind_inv in H as (u1 & s1 & H1 & H2).
    inversion HF as [|? ? [Hi Hj] HF']; subst. cbn in Hi, Hj.
    unfold push_eq_offs in H1. cbn [fst snd] in H1.
    destruct ((Z.of_nat row + i <? 0) || (Z.of_nat row + j <? 0)); [discriminate|].
    injection H1 as <- <-.
    destruct (push_eq_spec s (cl s (Z.to_nat (Z.of_nat row + i))) (cl s (Z.to_nat (Z.of_nat row + j))) HW) as (W1 & E1 & S1).
    apply IH in H2 as (W2 & E2 & A2 & Z2 & L2 & X2 & S2); auto.
    split; auto. split; [eapply ext_trans; eauto|]. split; [exact A2|]. split; [exact Z2|]. split; [exact L2|]. split; [exact X2|].
    intros lb sg. rewrite S2, S1.
    replace (Z.to_nat (Z.of_nat row + i)) with (row + Z.to_nat i)%nat by lia.
    replace (Z.to_nat (Z.of_nat row + j)) with (row + Z.to_nat j)%nat by lia.
    split.
    + intros [[HS He] HA]. split; auto. intros i' j' [Hin|Hin].
      * injection Hin as -> ->. now rewrite !Nat2Z.id in He.
      * apply (HA i' j' Hin).
    + intros [HS HA]. split; [split; auto|].
      * apply HA. left. now rewrite !Z2Nat.id by lia.
      * intros i' j' Hin. apply HA. now right.
Qed.

Lemma assign_region_smart_spec l offs eqs s u s' :
  wf s -> Forall (fun o => 0 <= o) offs -> Forall (fun e : Z * Z => 0 <= fst e /\ 0 <= snd e) eqs ->
  assign_region_smart l offs eqs s = Some (u, s') ->
  wf s' /\ ext s s' /\ advice s' = advice s ++ map qadv l /\ zero_cell s' = zero_cell s /\ lookups s' = lookups s /\
  Forall q_cell_ok l /\
  (forall i, nth_error (selector s') i = Some true <->
       nth_error (selector s) i = Some true \/ exists o, In o offs /\ Z.of_nat i = Z.of_nat (alen s) + o) /\
  forall lb sg, Sat lb sg s' <-> Sat lb sg s /\ region_sem sg (rv sg s) l offs /\
    (forall i j, In (Z.of_nat i, Z.of_nat j) eqs -> rv sg s i = rv sg s j).
Proof.
  intros HW HO HE H. unfold assign_region_smart in H.
  apply bind_inv in H as (row & s0 & H0 & H). unfold ctx_len in H0. injection H0 as <- <-.
  apply bind_inv in H as (u1 & s1 & H1 & H).
  apply assign_region_spec in H1 as (W1 & E1 & A1 & Z1 & L1 & K1 & X1 & _ & S1); auto.
  apply bind_inv in H as (w & s2 & H2 & H). unfold ctx_wgo in H2. injection H2 as <- <-.
  rewrite (wf_wgo _ W1) in H.
  apply push_eq_offs_iter in H as (W2 & E2 & A2 & Z2 & L2 & X2 & S2); auto.
  split; auto. split; [eapply ext_trans; eauto|]. split; [congruence|]. split; [congruence|]. split; [congruence|]. split; auto.
  split; [intros; rewrite X2; apply X1|].
  intros lb sg. rewrite S2, S1. unfold rv.
  split.
  - intros [[HS HR] HA]. split; auto. split; auto. intros i j Hin. specialize (HA i j Hin).
    now rewrite !(ext_cl _ _ _ E1) in HA.
  - intros (HS & HR & HA). split; auto. intros i j Hin. rewrite !(ext_cl _ _ _ E1). auto.
Qed.

Lemma assign_region_smart_total l offs eqs s : wf s -> Forall q_cell_ok l ->
  (forall o, In o offs -> 0 <= o < Z.of_nat (length l)) ->
  Forall (fun e : Z * Z => 0 <= fst e /\ 0 <= snd e) eqs ->
  exists s', assign_region_smart l offs eqs s = Some (tt, s').
Proof.
  intros HW HF HO HE. unfold assign_region_smart, bind, ctx_len.
  destruct (assign_region_total l offs s HW HF HO) as [s1 E1]. rewrite E1.
  apply assign_region_spec in E1 as (W1 & _); auto.
  2:{ rewrite Forall_forall. intros o Ho. apply HO in Ho. lia. }
  unfold ctx_wgo. rewrite (wf_wgo _ W1). clear HF HO HW l offs.
  generalize (alen s); clear s; intros row. revert s1 W1.
  induction eqs as [|[i j] eqs IH]; intros s1 W1; [eexists; reflexivity|].
  inversion HE as [|? ? [Hi Hj] HE']; subst; cbn in Hi, Hj.
  cbn [iterM]. unfold bind, push_eq_offs at 1. cbn [fst snd].
  destruct (Z.ltb_spec (Z.of_nat row + i) 0); [lia|]. destruct (Z.ltb_spec (Z.of_nat row + j) 0); [lia|]. cbn [orb].
  apply IH; auto. apply push_eq_spec; auto.
Qed.

(** ** load_witness, load_constant, load_zero *)
Lemma load_spec (q : qcell p) s a s' : wf s ->
  bind (assign_cell q) (fun _ => bind ctx_wgo (fun wg => bind (if wg then ret tt else resize_selector) (fun _ => ctx_last))) s = Some (a, s') ->
  wf s' /\ ext s s' /\ advice s' = advice s ++ [qadv q] /\ av_in s' a /\ av_cell a = Some (cl s (alen s)) /\ av_val a = qadv q /\
  zero_cell s' = zero_cell s /\
  forall lb sg, Sat lb sg s' <-> Sat lb sg s /\ qsem sg q (avs sg a).
Proof.
  intros HW H.
  assert (HR : bind (assign_region [q] []) (fun _ => ctx_last) s = Some (a, s')).
  { rewrite <- H. unfold assign_region, bind, ctx_wgo, ctx_len. rewrite (wf_wgo _ HW). cbn [iterM]. unfold bind.
    destruct (assign_cell q s) as [[u1 s1]|] eqn:E; [|reflexivity].
    pose proof (assign_cell_keygen _ _ _ _ (wf_wgo _ HW) E) as (E1 & C1 & -> & _). reflexivity. }
  clear H. apply bind_inv in HR as (u1 & s1 & H1 & H2).
  apply assign_region_spec in H1 as (W1 & X1 & A1 & Z1 & L1 & K1 & _ & _ & S1); auto.
  rewrite ctx_last_get in H2. change (-1) with (- Z.of_nat 1) in H2.
  apply (ctx_get_region s) with (l := map qadv [q]) in H2 as (-> & B1 & B2 & B3 & B4); auto.
  cbn in B1, B2, B4. split; auto. split; auto. split; auto. split; auto.
  rewrite Nat.add_0_r in B1. split; auto. split; [congruence|]. split; auto.
  intros. rewrite S1, B4. unfold region_sem. split.
  - intros [? [Hq _]]. split; [assumption|]. exact (Hq O q eq_refl).
  - intros [? Hq]. split; auto. split; [|intros ? []]. intros [|i] q' Hn; [injection Hn as <-; auto|].
    destruct i; discriminate.
Qed.

Lemma load_total (q : qcell p) s : wf s -> q_cell_ok q -> exists a s',
  bind (assign_cell q) (fun _ => bind ctx_wgo (fun wg => bind (if wg then ret tt else resize_selector) (fun _ => ctx_last))) s = Some (a, s').
Proof.
  intros HW HQ.
  assert (exists s1, assign_cell q s = Some (tt, s1)) as (s1 & E1).
  { destruct (iter_assign_total [q] s (wf_wgo _ HW)) as [s1 E1]; auto.
    cbn [iterM] in E1. apply bind_inv in E1 as (u & s2 & E & _). destruct u; eauto. }
  unfold bind. rewrite E1.
  pose proof (assign_cell_keygen _ _ _ _ (wf_wgo _ HW) E1) as (E & C & -> & _).
  unfold ctx_wgo. cbn [wgo]. unfold resize_selector, ctx_last, alen; cbn [advice set_selector].
  destruct (nth_error _ _) eqn:En; [eauto|].
  apply nth_error_None in En. rewrite app_length in En. simpl in En. lia.
Qed.

Lemma load_witness_spec w s a s' : wf s -> load_witness w s = Some (a, s') ->
  wf s' /\ ext s s' /\ advice s' = advice s ++ [ATriv w] /\ av_in s' a /\ av_cell a = Some (cl s (alen s)) /\ av_val a = ATriv w /\
  forall lb sg, Sat lb sg s' <-> Sat lb sg s.
Proof.
  intros HW H. apply (load_spec (Witness w)) in H as (H1 & H2 & H3 & H4 & H5 & H6 & _ & H7); auto.
  do 6 (split; [assumption|]). intros lb sg. rewrite H7. cbn. tauto.
Qed.
Lemma load_witness_total w s : wf s -> exists a s', load_witness w s = Some (a, s').
Proof. intros. apply (load_total (Witness w)); simpl; auto. Qed.

Lemma load_constant_spec c s a s' : wf s -> load_constant c s = Some (a, s') ->
  wf s' /\ ext s s' /\ advice s' = advice s ++ [ATriv c] /\ av_in s' a /\ av_cell a = Some (cl s (alen s)) /\ av_val a = ATriv c /\
  forall lb sg, Sat lb sg s' <-> Sat lb sg s /\ avs sg a = c.
Proof.
  intros HW H. apply (load_spec (Constant c)) in H as (H1 & H2 & H3 & H4 & H5 & H6 & _ & H7); auto.
  do 6 (split; [assumption|]). exact H7.
Qed.
Lemma load_constant_total c s : wf s -> exists a s', load_constant c s = Some (a, s').
Proof. intros. apply (load_total (Constant c)); simpl; auto. Qed.

Lemma set_zero_ext s z : ext s (set_zero s z).
Proof. constructor; cbn; auto; exists []; now rewrite app_nil_r. Qed.
Lemma set_zero_sat s z lb sg : Sat lb sg (set_zero s z) <-> Sat lb sg s.
Proof. split; intros [S1 S2 S3 S4]; constructor; auto. Qed.

Lemma load_zero_spec s a s' : wf s -> load_zero s = Some (a, s') ->
  wf s' /\ ext s s' /\ av_in s' a /\ av_val a = ATriv F0 /\
  (forall lb sg, Sat lb sg s' -> avs sg a = F0) /\
  (forall lb sg, Agree sg s' -> Sat lb sg s -> Sat lb sg s').
Proof.
  intros HW H. unfold load_zero in H. destruct (zero_cell s) as [z|] eqn:EZ.
  - injection H as <- <-. pose proof (wf_zero _ HW) as WZ. unfold zero_wf in WZ. rewrite EZ in WZ.
    destruct WZ as (Z1 & Z2 & c & Z3 & Z4).
    split; auto. split; [apply ext_refl|]. split; auto. split; auto. split; auto.
    intros lb sg HS. unfold avs. rewrite Z3. apply (sat_const _ _ _ HS _ _ Z4).
  - apply bind_inv in H as (z & s1 & H1 & H2). injection H2 as <- <-.
    pose proof H1 as H1'. unfold load_constant in H1'. apply load_spec in H1' as (W1 & X1 & A1 & I1 & C1 & V1 & Z1 & S1); auto.
    assert (Hin : In (F0, cl s (alen s)) (const_eqs s1)).
    { clear - H1 HW. unfold load_constant in H1. unfold bind at 1 in H1.
      unfold assign_cell in H1. rewrite (wf_wgo _ HW) in H1. rewrite latest_push in H1.
      unfold bind, ctx_wgo in H1. cbn [wgo push_const push_advice set_advice] in H1. rewrite (wf_wgo _ HW) in H1.
      unfold resize_selector, ctx_last in H1.
      destruct (nth_error _ _); [|discriminate]. injection H1 as _ <-. cbn. apply in_or_app; right; now left. }
    split; [|split; [|split; [|split; [|split]]]].
    + constructor; cbn; [apply W1|apply W1|]. unfold zero_wf; cbn. split; [|split; auto].
      * destruct I1 as (i & I2 & I3). exists i. auto.
      * eexists; split; [exact C1|]. auto.
    + eapply ext_trans; [exact X1|]. apply set_zero_ext.
    + eapply av_in_mono; [apply set_zero_ext|exact I1].
    + exact V1.
    + intros lb sg HS. apply set_zero_sat in HS. apply S1 in HS as [_ HS]. exact HS.
    + intros lb sg HA HS. apply set_zero_sat. apply S1. split; auto. cbn.
      assert (av_ok sg z). { eapply av_in_ok; [exact I1|]. eapply agree_mono; [apply set_zero_ext|exact HA]. }
      destruct H as [_ ->]. rewrite V1. reflexivity.
Qed.
Lemma load_zero_total s : wf s -> exists a s', load_zero s = Some (a, s').
Proof.
  intros HW. unfold load_zero. destruct (zero_cell s); [eauto|]. unfold bind.
  destruct (load_constant_total F0 s HW) as (a & s' & ->). eauto.
Qed.

Lemma agree_rv rho s s' l k v : ext s s' -> advice s' = advice s ++ l -> Agree rho s' ->
  nth_error l k = Some v -> rv rho s k = aeval v.
Proof.
  intros E A HA Hn. unfold rv. rewrite <- (ext_cl _ _ _ E). apply HA.
  rewrite A. rewrite nth_error_app2; unfold alen; [|lia]. rewrite <- Hn. f_equal. lia.
Qed.

Lemma q_value_cases q v : q_value q = Some v ->
  (exists a, q = Existing a /\ av_val a = ATriv v) \/ q = Witness v \/ q = Constant v.
Proof.
  destruct q as [a|w|w|c]; simpl; intros H; try discriminate; try (injection H as ->; auto).
  left. exists a. split; auto. unfold av_value in H. destruct (av_val a); try discriminate. now injection H as ->.
Qed.
Lemma q_value_adv q v : q_value q = Some v -> qadv q = ATriv v.
Proof. intros H. apply q_value_cases in H as [(a & -> & Ha)|[->| ->]]; simpl; auto. Qed.
Lemma q_ok_sem rho q v : q_value q = Some v -> q_ok rho q -> qsem rho q v.
Proof.
  intros H. pose proof (q_value_adv _ _ H) as HA. apply q_value_cases in H as [(a & -> & Ha)|[->| ->]]; simpl; auto.
  intros [_ ->]. now rewrite Ha.
Qed.
Lemma q_ok_cell rho q : q_ok rho q -> q_cell_ok q.
Proof. destruct q; simpl; auto. now intros [H _]. Qed.

End Proofs.
