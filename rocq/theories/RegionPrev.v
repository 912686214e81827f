(** Regions whose first gate overlaps the cell before the region (relative offset -1). *)
From Coq Require Import ZArith Znumtheory Lia List Bool Ring.
From Verif Require Import Field Spec Context ContextProofs Utils Logic Gate GateProofs ChainProofs IPProofs BitProofs PowProofs IPComp Derived
  RegionGets Calc CalcH.
Import ListNotations.
Local Open Scope Z_scope.

Section Prev.
Context {p : positive}.
Notation Fp := (F p).
Notation AV := (AV p).
Implicit Types (s : st p) (q : qcell p).

(** the gate that starts at the last cell of the previous region *)
Definition prev_sem (pv : Fp) (v : nat -> Fp) : Prop := (pv + v 0%nat * v 1%nat)%F = v 2%nat.

Lemma assign_region_prev_spec l offs s u s' :
  wf s -> (0 < alen s)%nat -> Forall (fun o => -1 <= o) offs -> assign_region l offs s = Some (u, s') ->
  wf s' /\ ext s s' /\ advice s' = advice s ++ map qadv l /\
  forall lb sg, Sat lb sg s' <-> Sat lb sg s /\ region_sem sg (rv sg s) l offs /\
     (In (-1) offs -> prev_sem (sg (cl s (alen s - 1))) (rv sg s)).
Proof.
  intros [W WL WZ] Hal Hoff H. unfold assign_region in H.
  apply bind_inv in H as (w & s0 & H0 & H). unfold ctx_wgo in H0. injection H0 as <- <-. rewrite W in H.
  apply bind_inv in H as (row & s0 & H0 & H). unfold ctx_len in H0. injection H0 as <- <-.
  apply bind_inv in H as (u1 & s1 & H1 & H).
  apply bind_inv in H as (u2 & s2 & H2 & H).
  apply iter_assign_keygen in H1 as (E & C & -> & HQ & HF); auto.
  unfold resize_selector in H2. injection H2 as <- <-.
  apply enable_gates_spec in H as (sel & -> & L1 & L2 & L3).
  cbn [selector set_selector advice alen s_phase s_tid s_cid wgo adv_eqs const_eqs lookups zero_cell] in *.
  assert (HR : resize (selector s) (alen {| wgo := false; s_phase := s_phase s; s_tid := s_tid s; s_cid := s_cid s;
       advice := advice s ++ map qadv l; zero_cell := zero_cell s; selector := selector s;
       adv_eqs := adv_eqs s ++ E; const_eqs := const_eqs s ++ C; lookups := lookups s |})
       = selector s ++ repeat false (length l)).
  { rewrite resize_same; unfold alen; cbn [advice]; rewrite app_length, map_length, WL; [|lia].
    f_equal. f_equal. lia. }
  rewrite HR in *. clear HR.
  assert (Hselnew : forall j, nth_error (selector s ++ repeat false (length l)) j = Some true <-> nth_error (selector s) j = Some true).
  { intros j. destruct (lt_dec j (length (selector s))) as [Hj|Hj].
    - rewrite nth_error_app1; auto. reflexivity.
    - rewrite nth_error_app2 by lia. split; intros Hn.
      + apply nth_error_In, repeat_spec in Hn. discriminate.
      + assert (nth_error (selector s) j = None) by (apply nth_error_None; lia). congruence. }
  assert (Hsel : forall j, nth_error sel j = Some true <->
       nth_error (selector s) j = Some true \/ exists o, In o offs /\ Z.of_nat j = Z.of_nat (alen s) + o).
  { intros j. rewrite L3, Hselnew. reflexivity. }
  match goal with |- wf ?x /\ _ => set (s' := x) end.
  assert (HE : ext s s').
  { constructor; cbn; auto; try (eexists; reflexivity).
    - intros i Hi. apply Hsel; auto.
    - exists []. now rewrite app_nil_r. }
  assert (Hlen : length sel = length (advice s ++ map qadv l)).
  { rewrite L1, !app_length, repeat_length, map_length. lia. }
  split; [|split; [exact HE|split; [reflexivity|]]].
  - constructor; cbn; auto. apply (zero_wf_mono s); auto.
  - intros lb sg. unfold region_sem.
    split.
    + intros HS. split; [eapply sat_mono; eauto|]. split; [split|].
      * apply HQ. destruct HS as [S1 S2 S3 S4]. cbn in *. split; intros; [apply S2|apply S3]; apply in_or_app; auto.
      * intros k Hk. unfold rv. destruct HS as [S1 _ _ _].
        assert (Hg : nth_error (selector s') (alen s + k) = Some true).
        { cbn. apply Hsel. right. exists (Z.of_nat k). split; auto. lia. }
        apply S1 in Hg. apply (ext_gate _ _ _ _ HE) in Hg. unfold gate_at in Hg.
        rewrite <- !Nat.add_assoc in Hg. exact Hg.
      * intros Hk. unfold prev_sem, rv. destruct HS as [S1 _ _ _].
        assert (Hg : nth_error (selector s') (alen s - 1) = Some true).
        { cbn. apply Hsel. right. exists (-1). split; auto. lia. }
        apply S1 in Hg. apply (ext_gate _ _ _ _ HE) in Hg. unfold gate_at in Hg.
        replace (alen s + 0)%nat with (alen s - 1 + 1)%nat by lia. replace (alen s + 1)%nat with (alen s - 1 + 2)%nat by lia.
        replace (alen s + 2)%nat with (alen s - 1 + 3)%nat by lia. exact Hg.
    + intros [HS [[Hq Hg] Hpv]]. apply HQ in Hq as [XE XC]. destruct HS as [S1 S2 S3 S4].
      constructor; cbn.
      * intros i Hi. apply (ext_gate _ _ _ _ HE). apply Hsel in Hi as [Hi|(o & Ho & Heq)]; auto.
        rewrite Forall_forall in Hoff. specialize (Hoff o Ho).
        destruct (Z.eq_dec o (-1)) as [->|No].
        { specialize (Hpv Ho). unfold prev_sem, rv, gate_at in *. replace i with (alen s - 1)%nat by lia.
          replace (alen s + 0)%nat with (alen s - 1 + 1)%nat in Hpv by lia. replace (alen s + 1)%nat with (alen s - 1 + 2)%nat in Hpv by lia.
          replace (alen s + 2)%nat with (alen s - 1 + 3)%nat in Hpv by lia. exact Hpv. }
        specialize (Hg (Z.to_nat o)). rewrite Z2Nat.id in Hg by lia. specialize (Hg Ho).
        replace i with (alen s + Z.to_nat o)%nat by lia.
        unfold gate_at, rv in *. rewrite <- !Nat.add_assoc. exact Hg.
      * intros a b Hin. apply in_app_or in Hin as [Hin|Hin]; auto.
      * intros a b Hin. apply in_app_or in Hin as [Hin|Hin]; auto.
      * auto.
Qed.

Lemma assign_region_prev_total l offs s : wf s -> (0 < alen s)%nat -> Forall q_cell_ok l ->
  (forall o, In o offs -> -1 <= o < Z.of_nat (length l)) ->
  exists s', assign_region l offs s = Some (tt, s').
Proof.
  intros [W WL WZ] Hal HF HO. unfold assign_region, bind, ctx_wgo, ctx_len. rewrite W.
  destruct (iter_assign_total l s W HF) as [s1 E1]. rewrite E1.
  pose proof (iter_assign_keygen _ _ _ _ W E1) as (E & C & -> & _ & _).
  unfold resize_selector. apply enable_gates_total.
  intros o Ho. specialize (HO o Ho). cbn [selector set_selector].
  rewrite resize_same by (unfold alen; cbn; rewrite app_length; lia).
  unfold alen in *; cbn. rewrite app_length, repeat_length, !app_length, map_length. lia.
Qed.

(** ** judgements for code that starts right after the cell [y] *)
Variable lb : nat.
Notation sound := (sound lb).
Notation comp := (comp lb).
Notation env := (env (p:=p)).
Notation hcalc := (hcalc lb).
Definition ends_at s (y : AV) : Prop := (0 < alen s)%nat /\ at_off s (alen s - 1) y.

Definition sound_at (y : AV) {A} (m : M p A) (P : A -> Prop) (Q : (cell -> Fp) -> A -> Prop) : Prop :=
  forall s a s', wf s -> ends_at s y -> m s = Some (a, s') ->
    wf s' /\ ext s s' /\ P a /\ forall sg, Sat lb sg s' -> Q sg a.
Definition comp_at (y : AV) {A} (H : (cell -> Fp) -> Prop) (m : M p A) (P : A -> Prop) (Q : (cell -> Fp) -> A -> Prop) : Prop :=
  forall s, wf s -> ends_at s y -> exists a s', m s = Some (a, s') /\ wf s' /\ ext s s' /\ P a /\
    forall rho, Agree rho s' -> Sat lb rho s -> H rho -> Sat lb rho s' /\ Q rho a.
Definition hcalc_at (y : AV) {B} (L : list AV) (Pre : env -> Prop) (Hon : Prop) (m : M p B) (P : B -> Prop) (R : env -> B -> Prop)
    (cs : B -> list AV) : Prop :=
  sound_at y m P (fun sg o => Pre (avs sg) -> R (avs sg) o) /\
  (Forall good L -> Pre hval -> Hon ->
   comp_at y (fun rho => Forall (av_ok rho) L) m
        (fun o => P o /\ Forall good (cs o) /\ R hval o) (fun rho o => Forall (av_ok rho) (cs o))).
Definition leaves_last {A} (m : M p A) (x : A -> AV) : Prop := forall s a s', wf s -> m s = Some (a, s') -> ends_at s' (x a).

Lemma h_bind_at {A B} L (Pre : env -> Prop) Hon (m : M p A) (x : A -> AV) (f : A -> M p B) P1 R1 c1 P2 R2 c2 :
  hcalc L Pre Hon m P1 R1 c1 -> leaves_last m x ->
  (forall a, P1 a -> hcalc_at (x a) (c1 a ++ L) (fun e => Pre e /\ R1 e a) Hon (f a) P2 R2 c2) ->
  hcalc L Pre Hon (bind m f) P2 R2 c2.
Proof.
  intros [S1 C1] HL H2. split.
  - intros s b s' W H. apply bind_inv in H as (a & s1 & E1 & E2).
    destruct (S1 _ _ _ W E1) as (W1 & X1 & PA & QA).
    destruct (proj1 (H2 a PA) _ _ _ W1 (HL _ _ _ W E1) E2) as (W2 & X2 & PB & QB).
    split; auto. split; [eapply ext_trans; eauto|]. split; auto.
    intros sg HS Hpre. apply QB; auto. split; auto. apply QA; auto. eapply sat_mono; eauto.
  - intros HG Hpre Hh s W. destruct (C1 HG Hpre Hh s W) as (a & s1 & E1 & W1 & X1 & (Pa & Ga & Ra) & K1).
    destruct (proj2 (H2 a Pa)) with (s := s1) as (b & s2 & E2 & W2 & X2 & PB & K2); eauto.
    { apply Forall_app; auto. }
    exists b, s2. split; [unfold bind; now rewrite E1|]. split; auto. split; [eapply ext_trans; eauto|]. split; auto.
    intros rho HA HS HF. destruct (K1 rho) as [K1a K1b]; auto. { eapply agree_mono; eauto. }
    apply K2; auto. apply Forall_app; auto.
Qed.
Lemma at_bind {A B} y L (Pre : env -> Prop) Hon (m : M p A) (f : A -> M p B) P1 R1 c1 P2 R2 c2 :
  hcalc_at y L Pre Hon m P1 R1 c1 ->
  (forall a, P1 a -> hcalc (c1 a ++ L) (fun e => Pre e /\ R1 e a) Hon (f a) P2 R2 c2) ->
  hcalc_at y L Pre Hon (bind m f) P2 R2 c2.
Proof.
  intros [S1 C1] H2. split.
  - intros s b s' W HE H. apply bind_inv in H as (a & s1 & E1 & E2).
    destruct (S1 _ _ _ W HE E1) as (W1 & X1 & PA & QA).
    destruct (proj1 (H2 a PA) _ _ _ W1 E2) as (W2 & X2 & PB & QB).
    split; auto. split; [eapply ext_trans; eauto|]. split; auto.
    intros sg HS Hpre. apply QB; auto. split; auto. apply QA; auto. eapply sat_mono; eauto.
  - intros HG Hpre Hh s W HE. destruct (C1 HG Hpre Hh s W HE) as (a & s1 & E1 & W1 & X1 & (Pa & Ga & Ra) & K1).
    destruct (proj2 (H2 a Pa)) with (s := s1) as (b & s2 & E2 & W2 & X2 & PB & K2); eauto.
    { apply Forall_app; auto. }
    exists b, s2. split; [unfold bind; now rewrite E1|]. split; auto. split; [eapply ext_trans; eauto|]. split; auto.
    intros rho HA HS HF. destruct (K1 rho) as [K1a K1b]; auto. { eapply agree_mono; eauto. }
    apply K2; auto. apply Forall_app; auto.
Qed.
Lemma at_lift_bind {A B} y L (Pre : env -> Prop) (Hon : Prop) (o : option A) (f : A -> M p B) P R cs :
  (Hon -> Pre hval -> Forall good L -> exists a, o = Some a) -> (forall a, o = Some a -> hcalc_at y L Pre Hon (f a) P R cs) ->
  hcalc_at y L Pre Hon (bind (lift o) f) P R cs.
Proof.
  intros H1 H2. split.
  - intros s b s' W HE H. apply bind_inv in H as (a & s1 & E1 & E2). apply lift_inv in E1 as [E1 ->].
    apply (proj1 (H2 a E1) _ _ _ W HE E2).
  - intros HG Hpre Hh s W HE. destruct (H1 Hh Hpre HG) as [a E]. unfold bind, lift. rewrite E. cbn [option_map].
    apply (proj2 (H2 a E) HG Hpre Hh s W HE).
Qed.
Lemma at_weaken {B} y L L' (Pre Pre' : env -> Prop) (Hon Hon' : Prop) (m : M p B) (P P' : B -> Prop) (R R' : env -> B -> Prop) cs cs' :
  hcalc_at y L Pre Hon m P R cs -> incl L L' -> (forall e, Pre' e -> Pre e) -> (Hon' -> Pre' hval -> Hon) -> (forall b, P b -> P' b) ->
  (forall e b, P b -> Pre' e -> R e b -> R' e b) -> (forall b, P b -> incl (cs' b) (cs b ++ L')) ->
  hcalc_at y L' Pre' Hon' m P' R' cs'.
Proof.
  intros [S C] HL HPre HHon HP HR HC. split.
  - intros s b s' W HE E. destruct (S s b s' W HE E) as (W1 & X1 & PB & QB). repeat (split; auto).
  - intros HG Hpre Hh.
    assert (HG' : Forall good L) by (rewrite Forall_forall in *; auto).
    intros s W HE. destruct (C HG' (HPre _ Hpre) (HHon Hh Hpre) s W HE) as (b & s' & E & W' & X & (Pb & Gb & Rb) & K).
    exists b, s'. do 3 (split; auto). split.
    + split; auto. split; auto. specialize (HC b Pb). rewrite Forall_forall in *. intros a Ha.
      apply HC, in_app_or in Ha as [Ha|Ha]; auto.
    + intros rho HA HS HF.
      assert (HF' : Forall (av_ok rho) L) by (rewrite Forall_forall in *; auto).
      destruct (K rho HA HS HF') as [K1 K2]. split; auto.
      specialize (HC b Pb). rewrite Forall_forall in *. intros a Ha. apply HC, in_app_or in Ha as [Ha|Ha]; auto.
Qed.
Lemma at_ext {B} y L (Pre : env -> Prop) (Hon : Prop) (m m' : M p B) P R cs : (forall s, m s = m' s) ->
  hcalc_at y L Pre Hon m' P R cs -> hcalc_at y L Pre Hon m P R cs.
Proof.
  intros E [S C]. split.
  - intros s a s' W HE H. rewrite E in H. eauto.
  - intros HG Hp Hh s W HE. destruct (C HG Hp Hh s W HE) as (a & s' & R0 & K). exists a, s'. rewrite E. auto.
Qed.
Lemma h_ext {B} L (Pre : env -> Prop) (Hon : Prop) (m m' : M p B) P R cs : (forall s, m s = m' s) ->
  hcalc L Pre Hon m' P R cs -> hcalc L Pre Hon m P R cs.
Proof. intros E [S C]. split; [now apply (sound_ext lb m m')|]. intros. apply (comp_ext lb _ m m'); auto. Qed.

(** semantic values of the cells of a region in an environment *)
Definition qsem_e (e : env) (q : qcell p) (v : Fp) : Prop :=
  match q with Existing a => e a = v | Constant c => v = c | _ => True end.
Lemma qsem_e_of sg q v : qsem sg q v -> qsem_e (avs sg) q v.
Proof. destruct q; cbn; auto. Qed.
Definition region_e (e : env) (v : nat -> Fp) (l : list (qcell p)) (offs : list Z) : Prop :=
  (forall i q, nth_error l i = Some q -> qsem_e e q (v i)) /\
  (forall k, In (Z.of_nat k) offs -> (v k + v (k + 1)%nat * v (k + 2)%nat)%F = v (k + 3)%nat).

(** a cell that is a constant, a witness, or an existing cell of [L] *)
Definition rin (L : list AV) (q : qcell p) : Prop :=
  match q with Existing a => In a L | Constant _ | Witness _ => True | WitnessFraction _ => False end.
Definition wit_is (q : qcell p) (x : AV) : Prop := match q with Witness w => hval x = w | _ => True end.
Lemma rin_ok L l rho : Forall (av_ok rho) L -> Forall (rin L) l -> Forall (q_ok rho) l.
Proof. intros H HL. rewrite Forall_forall in *. intros q Hq. specialize (HL q Hq). destruct q; cbn in *; auto. Qed.
Lemma rin_cell L l : Forall good L -> Forall (rin L) l -> Forall q_cell_ok l.
Proof. intros H HL. rewrite Forall_forall in *. intros q Hq. specialize (HL q Hq). destruct q; cbn in *; auto. apply H, HL. Qed.
Lemma rin_qe L l i q : Forall good L -> Forall (rin L) l -> nth_error l i = Some q -> qsem_e hval q (qvals l i).
Proof.
  intros HG HL Hn. unfold qvals. pose proof (nth_error_In _ _ Hn) as Hq. rewrite Forall_forall in HL. specialize (HL q Hq).
  rewrite (nth_error_nth _ _ F0 (x := aeval (qadv q))) by (rewrite nth_error_map, Hn; reflexivity).
  destruct q; cbn in *; auto.
Qed.

(** get lists as values of [ctx_get] *)
Lemma gets_facts s s1 l ks xs s2 qs : wf s1 -> advice s1 = advice s ++ map qadv l -> ext s s1 ->
  Forall2 (fun k q => (0 < k <= length l)%nat /\ nth_error l (length l - k) = Some q) ks qs ->
  gets ks s1 = Some (xs, s2) ->
  s2 = s1 /\ Forall2 wit_is qs xs /\ Forall2 (fun q x => av_val x = qadv q /\ av_cell x <> None) qs xs /\
  (forall sg, Forall2 (fun k x => avs sg x = rv sg s (length l - k)) ks xs) /\ (forall rho, Agree rho s1 -> Forall (av_ok rho) xs).
Proof.
  intros W A X Hk H.
  assert (HK : Forall (fun k => (0 < k <= length (map qadv l))%nat) ks).
  { rewrite map_length. clear - Hk. induction Hk; constructor; auto. apply H. }
  apply (gets_region s) with (l := map qadv l) in H as (-> & F); auto. rewrite map_length in F. split; auto.
  assert (G : Forall2 (fun q x => av_val x = qadv q /\ av_cell x <> None) qs xs).
  { clear - F Hk. revert xs F. induction Hk; intros xs F; inversion F; subst; constructor; auto.
    destruct H as [_ H]. destruct H2 as (_ & H2 & H3 & _). rewrite nth_error_map, H in H2. injection H2 as H2. auto. }
  split; [|split; [auto|split]].
  - clear - G. induction G; constructor; auto. destruct H as [H _]. destruct x; cbn; auto. unfold hval. now rewrite H.
  - intros sg. clear - F. induction F; constructor; auto. apply H.
  - intros rho HA. clear - F HA. induction F; constructor; auto. eapply av_in_ok; eauto. apply H.
Qed.
Lemma good_of L l qs xs ks : Forall good L -> Forall (rin L) l ->
  Forall2 (fun k q => (0 < k <= length l)%nat /\ nth_error l (length l - k) = Some q) ks qs ->
  Forall2 (fun q x => av_val x = qadv q /\ av_cell x <> None) qs xs ->
  Forall good xs /\ Forall2 (fun k x => hval x = qvals l (length l - k)) ks xs.
Proof.
  intros HG HL Hk H. revert xs H. induction Hk as [|k q ks qs [Hk1 Hk2] Hk IH]; intros xs H; inversion H as [|? x ? xs' [V C] H']; subst; auto.
  destruct (IH _ H') as [I1 I2]. rewrite Forall_forall in HL. pose proof (HL q (nth_error_In _ _ Hk2)) as Hq.
  assert (hval x = qvals l (length l - k)).
  { unfold hval, qvals. rewrite V. symmetry. apply nth_error_nth. rewrite nth_error_map, Hk2. reflexivity. }
  split; constructor; auto. split; auto. unfold hval. destruct q; cbn in *; try rewrite V; try contradiction; auto.
  rewrite Forall_forall in HG. destruct (HG _ Hq) as [Hq1 _]. rewrite Hq1. reflexivity.
Qed.

Lemma h_region_gets L (Pre : env -> Prop) (Hon : Prop) l offs ks qs :
  Forall (rin L) l -> (forall o, In o offs -> 0 <= o /\ o + 3 < Z.of_nat (length l)) ->
  Forall2 (fun k q => (0 < k <= length l)%nat /\ nth_error l (length l - k) = Some q) ks qs ->
  (Hon -> Pre hval -> gates_ok (qvals l) offs) ->
  hcalc L Pre Hon (region_gets l offs ks) (Forall2 wit_is qs)
    (fun e xs => exists v, region_e e v l offs /\ Forall2 (fun k x => e x = v (length l - k)%nat) ks xs) (fun xs => xs).
Proof.
  intros HR HO Hk HG. split.
  - intros s xs s' W H. unfold region_gets in H. apply bind_inv in H as (u & s1 & E1 & E2).
    apply assign_region_spec in E1 as (W1 & X1 & A1 & _ & _ & _ & _ & _ & S1); auto.
    2:{ rewrite Forall_forall. intros o Ho. apply HO in Ho. lia. }
    destruct (gets_facts _ _ _ _ _ _ _ W1 A1 X1 Hk E2) as (-> & F1 & F2 & F3 & F4).
    repeat (split; auto). intros sg HS _. apply S1 in HS as [_ [R1 R2]]. exists (rv sg s). split; auto.
    split; auto. intros i q Hq. apply qsem_e_of; auto.
  - intros HGL Hpre Hh s W. pose proof (rin_cell _ _ HGL HR) as HF.
    destruct (assign_region_total l offs s W HF) as [s1 E1]; [intros o Ho; apply HO in Ho; lia|].
    pose proof E1 as E1'. apply assign_region_spec in E1' as (W1 & X1 & A1 & _ & _ & _ & _ & _ & S1); auto.
    2:{ rewrite Forall_forall. intros o Ho. apply HO in Ho. lia. }
    destruct (RegionGets.gets_total s s1 (map qadv l) ks A1) as [xs Ex].
    { rewrite map_length. clear - Hk. induction Hk; constructor; auto. apply H. }
    exists xs, s1. split; [unfold region_gets, bind; rewrite E1; exact Ex|]. split; auto. split; auto.
    destruct (gets_facts _ _ _ _ _ _ _ W1 A1 X1 Hk Ex) as (_ & F1 & F2 & F3 & F4).
    destruct (good_of _ _ _ _ _ HGL HR Hk F2) as [G1 G2]. specialize (HG Hh Hpre). split.
    + split; auto. split; auto. exists (qvals l). split; [|exact G2]. split; [|exact HG]. intros i q Hq. exact (rin_qe L l i q HGL HR Hq).
    + intros rho HA HS HF'. split; auto. apply S1. split; auto. eapply honest_region; eauto using rin_ok.
      intros k Hin. apply HO in Hin. lia.
Qed.

Lemma at_region_gets y L (Pre : env -> Prop) (Hon : Prop) l offs ks qs :
  In y L -> Forall (rin L) l -> (2 < length l)%nat -> (forall o, In o offs -> 0 <= o /\ o + 3 < Z.of_nat (length l)) ->
  Forall2 (fun k q => (0 < k <= length l)%nat /\ nth_error l (length l - k) = Some q) ks qs ->
  (Hon -> Pre hval -> gates_ok (qvals l) offs /\ prev_sem (hval y) (qvals l)) ->
  hcalc_at y L Pre Hon (region_gets l (-1 :: offs) ks) (Forall2 wit_is qs)
    (fun e xs => exists v, region_e e v l offs /\ prev_sem (e y) v /\ Forall2 (fun k x => e x = v (length l - k)%nat) ks xs) (fun xs => xs).
Proof.
  intros Hy HR Hl HO Hk HG.
  assert (HO1 : Forall (fun o => -1 <= o) (-1 :: offs)).
  { constructor; [lia|]. rewrite Forall_forall. intros o Ho. apply HO in Ho. lia. }
  assert (RS : forall sg v, region_sem sg v l (-1 :: offs) <-> region_sem sg v l offs).
  { intros sg v. unfold region_sem. split; intros [A B]; split; auto; intros k Hin; apply B; [now right|]. destruct Hin as [Hin|Hin]; auto. lia. }
  split.
  - intros s xs s' W [HE1 HE2] H. unfold region_gets in H. apply bind_inv in H as (u & s1 & E1 & E2).
    apply assign_region_prev_spec in E1 as (W1 & X1 & A1 & S1); auto.
    destruct (gets_facts _ _ _ _ _ _ _ W1 A1 X1 Hk E2) as (-> & F1 & F2 & F3 & F4).
    repeat (split; auto). intros sg HS _. apply S1 in HS as [_ [R1 R2]]. apply RS in R1 as [R1a R1b]. exists (rv sg s). split; [|split]; auto.
    + split; auto. intros i q Hq. apply qsem_e_of; auto.
    + unfold avs. rewrite (proj1 HE2). apply R2. now left.
  - intros HGL Hpre Hh s W [HE1 HE2]. pose proof (rin_cell _ _ HGL HR) as HF.
    destruct (assign_region_prev_total l (-1 :: offs) s W HE1 HF) as [s1 E1]; [intros o [<-|Ho]; [lia|apply HO in Ho; lia]|].
    pose proof E1 as E1'. apply assign_region_prev_spec in E1' as (W1 & X1 & A1 & S1); auto.
    destruct (RegionGets.gets_total s s1 (map qadv l) ks A1) as [xs Ex].
    { rewrite map_length. clear - Hk. induction Hk; constructor; auto. apply H. }
    exists xs, s1. split; [unfold region_gets, bind; rewrite E1; exact Ex|]. split; auto. split; auto.
    destruct (gets_facts _ _ _ _ _ _ _ W1 A1 X1 Hk Ex) as (_ & F1 & F2 & F3 & F4).
    destruct (good_of _ _ _ _ _ HGL HR Hk F2) as [G1 G2]. destruct (HG Hh Hpre) as [HG1 HG2]. split.
    + split; auto. split; auto. exists (qvals l). split; [|split; [exact HG2|exact G2]]. split; [|exact HG1]. intros i q Hq. exact (rin_qe L l i q HGL HR Hq).
    + intros rho HA HS HF'. split; auto. apply S1. split; auto. split.
      * apply RS. eapply honest_region; eauto using rin_ok. intros k Hin. apply HO in Hin. lia.
      * intros _.
        assert (V : forall k, (k < length l)%nat -> rv rho s k = qvals l k).
        { intros k Hk'. destruct (nth_error (map qadv l) k) as [v|] eqn:Ev.
          - rewrite (agree_rv rho s s1 _ k v X1 A1 HA Ev). unfold qvals. symmetry. apply nth_error_nth. rewrite <- map_map, nth_error_map, Ev. reflexivity.
          - apply nth_error_None in Ev. rewrite map_length in Ev. lia. }
        unfold prev_sem in *. rewrite !V by lia.
        rewrite Forall_forall in HF'. specialize (HF' _ Hy). unfold av_ok in HF'. destruct HF' as [_ HF']. unfold avs in HF'. rewrite (proj1 HE2) in HF'.
        rewrite HF'. rewrite Forall_forall in HGL. exact HG2.
Qed.
End Prev.
