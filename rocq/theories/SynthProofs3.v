(** End-to-end proofs about [synthesize]: the physical circuit is equivalent to the recorded virtual constraints. *)
From Coq Require Import ZArith Lia List Bool Permutation.
From Verif Require Import Field Spec Context ContextProofs SatCheck Layout LayoutProofs LayoutProofs2 LayoutProofs3 Synth SynthProofs SynthProofs2.
Import ListNotations.
Local Open Scope nat_scope.

Lemma range_table_iff {p} lb (x : F p) : In x (range_table lb) <-> (val x < 2 ^ Z.of_nat lb)%Z.
Proof.
  assert (HZ : Z.of_nat (2 ^ lb) = (2 ^ Z.of_nat lb)%Z) by (rewrite Nat2Z.inj_pow; reflexivity).
  unfold range_table. rewrite in_map_iff. split.
  - intros (i & <- & Hi). apply in_seq in Hi. rewrite val_of_Z. eapply Z.le_lt_trans; [apply Z.mod_le; lia|]. lia.
  - intros H. pose proof (val_bounds p x). exists (Z.to_nat (val x)). rewrite Z2Nat.id by lia. split; [apply of_Z_val|]. apply in_seq. lia.
Qed.

Section S.
Context {p : positive}.
Notation Fp := (F p).
Variables (c : params) (ext : list (cell * pcell)) (cs : list (vctx p)) (eqs : list (cell * cell)) (consts : list (Fp * cell))
  (calls : list (tag * list (AV p))) (inst : list (list (AV p))) (P : phys p).

Lemma synth_inv : synthesize c ext cs eqs consts calls inst = Some P ->
  exists cp1 cp2 icp, 
   assign_with_constraints (b_ncols c) (b_rows c) [] cs = Some (ph_lay P) /\
   (if with_range c then assign_lookups c calls (map (fun e => (fst e, PAdv (snd e))) (l_map (ph_lay P)) ++ ext)
    else Some ([], [], [], map (fun e => (fst e, PAdv (snd e))) (l_map (ph_lay P)) ++ ext)) = Some (ph_qlk P, ph_lwr P, cp1, ph_map P) /\
   copy_assign_raw (b_nfix c) (b_rows c) eqs consts (ph_map P) = Some (ph_fixed P, cp2) /\
   assign_instances c inst (ph_map P) = Some icp /\
   ph_copies P = cp1 ++ cp2 ++ icp.
Proof.
  unfold synthesize. destruct (assign_with_constraints _ _ _ cs) as [L|]; [|discriminate].
  destruct (if with_range c then _ else _) as [[[[q w] cp1] m1]|] eqn:E1; [|discriminate].
  destruct (copy_assign_raw _ _ _ _ m1) as [[fx cp2]|] eqn:E2; [|discriminate]. destruct (assign_instances c inst m1) as [icp|] eqn:E3; [|discriminate].
  intros [= <-]. exists cp1, cp2, icp. cbn. auto.
Qed.
(** instance copies *)
Lemma inst_enum i j a : (exists col, nth_error inst i = Some col /\ nth_error col j = Some a) <->
  In ((i, j), a) (flat_map (fun ci => map (fun ra => ((fst ci, fst ra), snd ra)) (combine (seq 0 (length (snd ci))) (snd ci))) (combine (seq 0 (length inst)) inst)).
Proof.
  assert (K : forall (A : Type) (l : list A) k i x, In (i, x) (combine (seq k (length l)) l) <-> exists n, i = k + n /\ nth_error l n = Some x).
  { clear. intros A l. induction l as [|y l IH]; intros k i x; cbn [length seq combine In]. { split; [intros []|]. intros (n & _ & H). destruct n; discriminate. }
    rewrite IH. split.
    - intros [H|(n & -> & H)]; [injection H as <- <-; exists 0; split; [lia|auto]|exists (S n); split; [lia|auto]].
    - intros ([|n] & -> & H); cbn in H; [left; injection H as <-; f_equal; lia|right; exists n; split; [lia|auto]]. }
  rewrite in_flat_map. split.
  - intros (col & H1 & H2). exists (i, col). rewrite K. split; [exists i; auto|]. cbn. apply in_map_iff. exists (j, a). split; auto. rewrite K. exists j. auto.
  - intros ([i' col] & H1 & H2). apply K in H1 as (n & -> & H1). cbn in H2. apply in_map_iff in H2 as ([j' a'] & E & H2). cbn in E. injection E as <- <- <-. apply K in H2 as (n' & -> & H2). cbn. eauto.
Qed.
Lemma inst_spec m icp : assign_instances c inst m = Some icp ->
  length inst = b_ninst c /\
  (forall i j col a, nth_error inst i = Some col -> nth_error col j = Some a -> exists d x, av_cell a = Some d /\ find_p m d = Some x /\ In (PInst i j, x) icp) /\
  (forall x y, In (x, y) icp -> exists i j col a d, nth_error inst i = Some col /\ nth_error col j = Some a /\ av_cell a = Some d /\ x = PInst i j /\ find_p m d = Some y).
Proof.
  unfold assign_instances. destruct (Nat.eqb_spec (length inst) (b_ninst c)); [|discriminate]. intros E. apply mapM_spec in E. split; auto. split.
  - intros i j col a H1 H2. assert (HI := proj1 (inst_enum i j a) (ex_intro _ col (conj H1 H2))). destruct (Forall2_in_l _ _ _ _ E HI) as (y & Hy & Hf). cbn in Hf.
    destruct (av_cell a) as [d|]; [|discriminate]. destruct (find_p m d) as [x|] eqn:Ef; [|discriminate]. injection Hf as <-. eauto.
  - intros x y H. destruct (Forall2_in_r _ _ _ _ E H) as ([[i j] a] & Hi & Hf). apply inst_enum in Hi as (col & H1 & H2). cbn in Hf.
    destruct (av_cell a) as [d|] eqn:Ed; [|discriminate]. destruct (find_p m d) as [z|] eqn:Ef; [|discriminate]. injection Hf as <- <-. exists i, j, col, a, d. auto.
Qed.
(** lookups *)
Lemma in_order_in t (tup : list (AV p)) : In (t, tup) calls -> In tup (in_order calls).
Proof. intros H. eapply Permutation_in; [apply Permutation_sym, in_order_perm|]. apply in_map_iff. exists (t, tup). auto. Qed.
Lemma in_order_out (tup : list (AV p)) : In tup (in_order calls) -> exists t, In (t, tup) calls.
Proof. intros H. eapply Permutation_in in H; [|apply in_order_perm]. apply in_map_iff in H as ([t u] & <- & H). eauto. Qed.
Lemma lookups_ext m q w cp m1 : assign_lookups c calls m = Some (q, w, cp, m1) ->
  (forall d x, find_p m d = Some x -> find_p m1 d = Some x) /\
  (forall d x, find_p m1 d = Some x -> find_p m d = Some x \/ (c_tid d = external_tid /\ exists k t i a, nth_error (in_order calls) k = Some t /\ nth_error t i = Some a /\ av_cell a = Some d /\ x = lkpos (b_nlk c) k i)).
Proof.
  unfold assign_lookups. destruct (Nat.eqb (total_rows calls) 0); [intros [= <- <- <- <-]; auto|]. destruct (single_col c).
  - destruct (mapM _ _); [|discriminate]. intros [= <- <- <- <-]. auto.
  - destruct (lookup_assign_raw _ _ _ _) as [[[w' cp'] m']|] eqn:E; [|discriminate]. intros [= <- <- <- <-].
    destruct (Nat.eq_dec (b_nlk c) 0) as [Hz|Hz].
    + rewrite Hz in E. pose proof (lk_raw_zero _ _ _ _ E) as HE. unfold lookup_assign_raw in E. rewrite HE in E. cbn in E. injection E as <- <- <-. auto.
    + rewrite lk_raw_idx in E by lia. apply lk_idx_spec in E as (H1 & _ & _ & H4). split; auto.
Qed.
(** every looked-up tuple of an accepted circuit *)
Lemma lookups_sound m q w cp m1 (A : pcell -> Fp) lb : assign_lookups c calls m = Some (q, w, cp, m1) -> with_range c = true ->
  (forall x y, In (x, y) cp -> A x = A y) ->
  (forall r, In r q -> (val (A (PAdv (0%nat, r))) < 2 ^ Z.of_nat lb)%Z) ->
  (single_col c = false -> forall k r, k < b_nlk c -> r < b_rows c -> (val (A (PLk k 0 r)) < 2 ^ Z.of_nat lb)%Z) ->
  forall t a tl, In (t, a :: tl) calls -> exists d x, av_cell a = Some d /\ find_p m1 d = Some x /\ (val (A x) < 2 ^ Z.of_nat lb)%Z.
Proof.
  intros E HW HC HQ HT t a tl HI. apply in_order_in in HI. unfold assign_lookups in E.
  destruct (Nat.eqb_spec (total_rows calls) 0) as [Hz|Hz]. { exfalso. unfold total_rows in Hz. destruct (in_order calls); [destruct HI|discriminate]. }
  destruct (single_col c) eqn:ES.
  - destruct (mapM _ _) as [q'|] eqn:EM; [|discriminate]. injection E as <- <- <- <-. apply mapM_spec in EM. destruct (Forall2_in_l _ _ _ _ EM HI) as (r & Hr & Hf). cbn in Hf.
    destruct (av_cell a) as [d|]; [|discriminate]. destruct (find_p m d) as [[[[|g] r']| | | |]|] eqn:Ef; try discriminate. injection Hf as ->. exists d, (PAdv (0, r)). auto.
  - destruct (lookup_assign_raw _ _ _ _) as [[[w' cp'] m']|] eqn:EL; [|discriminate]. injection E as <- <- <- <-.
    assert (Hn : 0 < b_nlk c). { destruct (Nat.eq_dec (b_nlk c) 0) as [Hz'|]; [|lia]. rewrite Hz' in EL. apply lk_raw_zero in EL. rewrite EL in HI. destruct HI. }
    rewrite lk_raw_idx in EL by auto. apply lk_idx_spec in EL as (_ & H2 & _). apply In_nth_error in HI as (k & Hk).
    destruct (H2 k _ 0 a Hk eq_refl) as (d & x & Hr & Hd & Hx & _ & Hc). exists d, x. split; auto. split; auto.
    assert (HL : (val (A (lkpos (b_nlk c) k 0)) < 2 ^ Z.of_nat lb)%Z). { apply HT; auto. apply Nat.mod_upper_bound. lia. }
    cbn [Nat.add] in Hc. destruct Hc as [Hc| ->]; auto. now rewrite (HC _ _ Hc).
Qed.

Hypothesis HS : synthesize c ext cs eqs consts calls inst = Some P.
Hypothesis Hrows : 4 <= b_rows c.
Hypothesis Hin : forall v i, In v cs -> nth_error (vc_sel v) i = Some true -> i + 3 < length (vc_adv v).
Hypothesis H01 : forall v, In v cs -> ~ (nth_error (vc_sel v) 0 = Some true /\ nth_error (vc_sel v) 1 = Some true).

Lemma synth_ext : (forall d x, find_cell (l_map (ph_lay P)) d = Some x -> find_p (ph_map P) d = Some (PAdv x)) /\
  (forall d x, find_p (ph_map P) d = Some x -> (exists y, find_cell (l_map (ph_lay P)) d = Some y /\ x = PAdv y) \/ In (d, x) ext \/
     (with_range c = true /\ single_col c = false /\ c_tid d = external_tid /\ exists k t i a, nth_error (in_order calls) k = Some t /\ nth_error t i = Some a /\ av_cell a = Some d /\ x = lkpos (b_nlk c) k i)).
Proof.
  destruct (synth_inv HS) as (cp1 & cp2 & icp & EL & EK & _).
  assert (HM : forall d, find_p (map (fun e => (fst e, PAdv (snd e))) (l_map (ph_lay P)) ++ ext) d = match find_cell (l_map (ph_lay P)) d with Some x => Some (PAdv x) | None => find_p ext d end).
  { intros d. rewrite find_p_app, find_p_adv. destruct (find_cell (l_map (ph_lay P)) d); auto. }
  assert (HM2 : forall d x, find_p (map (fun e => (fst e, PAdv (snd e))) (l_map (ph_lay P)) ++ ext) d = Some x -> (exists y, find_cell (l_map (ph_lay P)) d = Some y /\ x = PAdv y) \/ In (d, x) ext).
  { intros d x. rewrite HM. destruct (find_cell (l_map (ph_lay P)) d) as [y|]; [intros [= <-]; eauto|]. intros H. right. now apply find_p_in. }
  destruct (with_range c) eqn:EW.
  - pose proof (lookups_ext _ _ _ _ _ EK) as [H1 H2]. split.
    + intros d x Hd. apply H1. now rewrite HM, Hd.
    + intros d x Hd. destruct (single_col c) eqn:ES.
      * unfold assign_lookups in EK. rewrite ES in EK. assert (EE : ph_map P = map (fun e => (fst e, PAdv (snd e))) (l_map (ph_lay P)) ++ ext).
        { destruct (Nat.eqb (total_rows calls) 0); [now injection EK|]. destruct (mapM _ _); [|discriminate]. now injection EK. }
        rewrite EE in Hd. apply HM2 in Hd. tauto.
      * apply H2 in Hd as [Hd|(Hd & H)]; [apply HM2 in Hd; tauto|]. right. right. auto.
  - injection EK as _ _ _ EK. rewrite <- EK. split.
    + intros d x Hd. now rewrite HM, Hd.
    + intros d x Hd. apply HM2 in Hd. tauto.
Qed.
Lemma synth_loc A v i : In v cs -> i < length (vc_adv v) -> vval P A (vcell v i) = loc_val (ph_lay P) (fun x => A (PAdv x)) (vcell v i).
Proof.
  intros Hv Hi. destruct (synth_inv HS) as (cp1 & cp2 & icp & EL & _). destruct (asg_of_loc _ _ _ _ _ EL (fun _ => F0) v i Hv Hi) as (x & E & _).
  unfold vval, loc_val. now rewrite (proj1 synth_ext _ _ E), E.
Qed.

Theorem synth_sound A : phys_sat c A P ->
  vgates (vval P A) cs /\
  (forall a b, In (a, b) eqs -> vval P A a = vval P A b) /\
  (forall k a, In (k, a) consts -> vval P A a = k) /\
  (with_range c = true -> forall lb, b_lb c = Some lb -> forall t a tl, In (t, a :: tl) calls -> (val (avs (vval P A) a) < 2 ^ Z.of_nat lb)%Z) /\
  (forall i j col a, nth_error inst i = Some col -> nth_error col j = Some a -> avs (vval P A) a = A (PInst i j)).
Proof.
  intros (HP & HC & HF & HL). destruct (synth_inv HS) as (cp1 & cp2 & icp & EL & EK & EC & EI & EP). rewrite EP in HC. clear EP.
  assert (HC1 : forall x y, In (x, y) cp1 -> A x = A y) by (intros; apply HC; rewrite !in_app_iff; auto).
  assert (HC2 : forall x y, In (x, y) cp2 -> A x = A y) by (intros; apply HC; rewrite !in_app_iff; auto).
  assert (HC3 : forall x y, In (x, y) icp -> A x = A y) by (intros; apply HC; rewrite !in_app_iff; auto).
  split; [|split; [|split; [|split]]].
  - pose proof (layout_sound _ _ _ _ _ Hrows EL Hin H01 _ HP) as HV. intros v i Hv Hi. specialize (HV v i Hv Hi). pose proof (Hin v i Hv Hi). rewrite !synth_loc by (auto; lia). exact HV.
  - intros a b Hab. destruct (copy_eqs _ _ _ _ _ _ _ EC a b Hab) as (x & y & Ha & Hb & Hxy). unfold vval. rewrite Ha, Hb. auto.
  - intros k a Hka. destruct (copy_consts _ _ _ _ _ _ _ EC k a Hka) as (x & y & Hk & Ha & Hxy). unfold vval. rewrite Ha, <- (HC2 _ _ Hxy). auto.
  - intros HW lb Elb t a tl HI. rewrite HW in EK. destruct (HL HW lb Elb) as [HL1' HL2']. assert (HL1 : forall r, In r (ph_qlk P) -> (val (A (PAdv (0%nat, r))) < 2 ^ Z.of_nat lb)%Z) by (intros; now apply range_table_iff, HL1').
    assert (HL2 : single_col c = false -> forall k r, k < b_nlk c -> r < b_rows c -> (val (A (PLk k 0 r)) < 2 ^ Z.of_nat lb)%Z) by (intros; apply range_table_iff, HL2'; auto).
    destruct (lookups_sound _ _ _ _ _ A lb EK HW HC1 HL1 HL2 t a tl HI) as (d & x & Ed & Ex & Hlt). unfold avs, vval. now rewrite Ed, Ex.
  - intros i j col a Hi Hj. destruct (inst_spec _ _ EI) as (_ & H & _). destruct (H i j col a Hi Hj) as (d & x & Ed & Ex & Hx). unfold avs, vval. rewrite Ed, Ex. symmetry. auto.
Qed.

(** completeness *)
Section Comp.
Variables (sg : cell -> Fp) (sge : nat -> Fp).
Definition lk_val (k j r : nat) : Fp :=
  match nth_error (in_order calls) (r * b_nlk c + k) with
  | Some t => match nth_error t j with Some a => avs sg a | None => F0 end
  | None => F0
  end.
Definition inst_val (i j : nat) : Fp := match nth_error inst i with Some col => match nth_error col j with Some a => avs sg a | None => F0 end | None => F0 end.
Definition fix_val (x : pcell) : Fp := match find (fun e => match snd e, x with PFix a b, PFix a' b' => Nat.eqb a a' && Nat.eqb b b' | _, _ => false end) (ph_fixed P) with Some e => fst e | None => F0 end.
Definition phys_of (x : pcell) : Fp :=
  match x with
  | PAdv y => asg_of (b_rows c) cs sg y
  | PLk k j r => lk_val k j r
  | PFix _ _ => fix_val x
  | PInst i j => inst_val i j
  | PExt n => sge n
  end.
Hypothesis Hext : forall d x, In (d, x) ext -> exists n, x = PExt n /\ sg d = sge n.
Hypothesis Hg : vgates sg cs.
Hypothesis He : forall a b, In (a, b) eqs -> sg a = sg b.
Hypothesis Hk : forall k a, In (k, a) consts -> sg a = k.
Hypothesis Hl : with_range c = true -> forall lb, b_lb c = Some lb -> forall t a tl, In (t, a :: tl) calls -> (val (avs sg a) < 2 ^ Z.of_nat lb)%Z.

Lemma lk_val_at k t i a : 0 < b_nlk c -> nth_error (in_order calls) k = Some t -> nth_error t i = Some a -> phys_of (lkpos (b_nlk c) k i) = avs sg a.
Proof.
  clear. intros Hn H1 H2. cbn. unfold lk_val. replace (k / b_nlk c * b_nlk c + k mod b_nlk c) with k by (rewrite (Nat.div_mod k (b_nlk c)) at 1; lia). now rewrite H1, H2.
Qed.
Lemma nlk_pos : with_range c = true -> 0 < b_nlk c.
Proof. clear. unfold with_range. destruct (b_lb c); [|discriminate]. destruct (b_nlk c); [discriminate|lia]. Qed.
Lemma phys_of_found d x : find_p (ph_map P) d = Some x -> phys_of x = sg d.
Proof.
  intros H. destruct (proj2 synth_ext d x H) as [(y & Hy & ->)|[Hx|(HW & ES & Ht & k & t & i & a & H1 & H2 & H3 & ->)]].
  - destruct (synth_inv HS) as (cp1 & cp2 & icp & EL & _). destruct (pass_spec _ _ _ _ _ EL) as (_ & _ & _ & _ & _ & _ & _ & PM & _).
    apply PM in Hy as [Hy|(e & He' & -> & ->)]; [discriminate|]. cbn. apply asg_of_spec; auto. unfold P_locs, wlocs. now left.
  - destruct (Hext d x Hx) as (n & -> & E). cbn. auto.
  - rewrite (lk_val_at k t i a (nlk_pos HW) H1 H2). unfold avs. now rewrite H3.
Qed.
Lemma vval_of d : find_p (ph_map P) d <> None -> vval P phys_of d = sg d.
Proof. intros H. unfold vval. destruct (find_p (ph_map P) d) as [x|] eqn:E; [|congruence]. now apply phys_of_found. Qed.
Lemma fixed_at k x : In (k, x) (ph_fixed P) -> phys_of x = k.
Proof.
  intros H. destruct (synth_inv HS) as (cp1 & cp2 & icp & _ & _ & EC & _). destruct (copy_fixed _ _ _ _ _ _ _ EC) as (_ & N & _ & HF). destruct (HF k x H) as (g & r & -> & _).
  cbn. unfold fix_val. destruct (find _ _) as [[k' x']|] eqn:E.
  - apply find_some in E as [E1 E2]. cbn in E2. destruct x'; try discriminate. apply andb_prop in E2 as [E2 E3]. apply Nat.eqb_eq in E2, E3. subst.
    cbn. clear -N H E1. revert N H E1. generalize (ph_fixed P). intros l N H E. induction l as [|[u v] l IH]; [destruct H|]. cbn in N. inversion N as [|? ? N1 N2]; subst.
    destruct H as [H|H], E as [E|E]; try (now apply IH).
    + congruence.
    + injection H as -> ->. exfalso. apply N1. apply (in_map snd) in E. exact E.
    + injection E as -> ->. exfalso. apply N1. apply (in_map snd) in H. exact H.
  - exfalso. apply (find_none _ _ E) in H. cbn in H. rewrite !Nat.eqb_refl in H. discriminate.
Qed.
Theorem synth_complete : phys_sat c phys_of P.
Proof.
  destruct (synth_inv HS) as (cp1 & cp2 & icp & EL & EK & EC & EI & EP). split; [|split; [|split]].
  - exact (layout_complete _ _ _ _ _ Hrows EL Hin H01 sg Hg).
  - rewrite EP. intros x y Hxy. rewrite !in_app_iff in Hxy. destruct Hxy as [Hxy|[Hxy|Hxy]].
    + destruct (with_range c) eqn:EW; [|injection EK as _ _ <- _; destruct Hxy]. unfold assign_lookups in EK.
      destruct (Nat.eqb (total_rows calls) 0); [injection EK as _ _ <- _; destruct Hxy|]. destruct (single_col c). { destruct (mapM _ _); [|discriminate]. injection EK as _ _ <- _. destruct Hxy. }
      rewrite lk_raw_idx in EK by (now apply nlk_pos). destruct (lk_idx _ _ _ _ _) as [[[w cp] m1]|] eqn:E1; [|discriminate]. injection EK as _ -> -> ->.
      apply lk_idx_spec in E1 as (_ & _ & H3 & _). destruct (H3 x y Hxy) as (k & t & i & a & d & Ht & Ha & Hd & Hx & ->). cbn [Nat.add].
      rewrite (lk_val_at k t i a (nlk_pos EW) Ht Ha). unfold avs. rewrite Hd. now apply phys_of_found.
    + destruct (copy_only _ _ _ _ _ _ _ EC x y Hxy) as [(a & b & Hab & Ha & Hb)|(k & a & Hka & Hk' & Ha)].
      * rewrite (phys_of_found _ _ Ha), (phys_of_found _ _ Hb). auto.
      * rewrite (phys_of_found _ _ Ha), (fixed_at _ _ Hk'). symmetry. auto.
    + destruct (inst_spec _ _ EI) as (_ & _ & H). destruct (H x y Hxy) as (i & j & col & a & d & Hi & Hj & Hd & -> & Hy). cbn. unfold inst_val. rewrite Hi, Hj. unfold avs. rewrite Hd. symmetry. now apply phys_of_found.
  - intros v x. apply fixed_at.
  - intros HW lb Elb. rewrite HW in EK. split.
    + intros r Hr. apply range_table_iff. unfold assign_lookups in EK. destruct (Nat.eqb (total_rows calls) 0); [injection EK as E0 _ _ _; rewrite <- E0 in Hr; destruct Hr|]. destruct (single_col c) eqn:ES.
      * destruct (mapM _ _) as [q|] eqn:EM; [|discriminate]. injection EK as -> _ _ EM'. apply mapM_spec in EM. destruct (Forall2_in_r _ _ _ _ EM Hr) as (t & Ht & Hf). destruct t as [|a t]; [discriminate|].
        destruct (av_cell a) as [d|] eqn:Ed; [|discriminate]. rewrite EM' in Hf. destruct (find_p (ph_map P) d) as [[[[|g] r']| | | |]|] eqn:Ef; try discriminate. injection Hf as ->.
        rewrite (phys_of_found _ _ Ef). apply in_order_out in Ht as (tg & Ht). specialize (Hl HW lb Elb tg a t Ht). unfold avs in Hl. now rewrite Ed in Hl.
      * destruct (lookup_assign_raw _ _ _ _) as [[[w cp] m1]|]; [|discriminate]. injection EK as E0 _ _ _. rewrite <- E0 in Hr. destruct Hr.
    + intros _ k r Hkn Hr. apply range_table_iff. cbn. unfold lk_val. assert (H0 : (val (F0 : Fp) < 2 ^ Z.of_nat lb)%Z) by (change (val (F0 : Fp)) with 0%Z; apply Z.pow_pos_nonneg; lia).
      destruct (nth_error (in_order calls) (r * b_nlk c + k)) as [[|a t]|] eqn:E; auto. cbn. apply nth_error_In, in_order_out in E as (tg & E). eapply Hl; eauto.
Qed.
End Comp.
End S.

(** no panic *)
Section T.
Context {p : positive}.
Notation Fp := (F p).
Theorem synth_total (c : params) ext (cs : list (vctx p)) eqs (consts : list (Fp * cell)) (calls : list (tag * list (AV p))) inst L :
  assign_with_constraints (b_ncols c) (b_rows c) [] cs = Some L ->
  let known d := (exists v i, In v cs /\ i < length (vc_adv v) /\ d = vcell v i) in
  (with_range c = true -> (forall t tup, In (t, tup) calls -> (forall a, In a tup -> exists d, av_cell a = Some d /\ known d) /\ tup <> []) /\
                          (single_col c = false -> length calls <= b_nlk c * b_rows c)) ->
  (forall a b, In (a, b) eqs -> (known a \/ In a (map fst ext)) /\ (known b \/ In b (map fst ext))) ->
  (forall k a, In (k, a) consts -> known a \/ In a (map fst ext)) -> num_distinct_constants consts <= b_nfix c * b_rows c ->
  length inst = b_ninst c -> (forall col a, In col inst -> In a col -> exists d, av_cell a = Some d /\ (known d \/ In d (map fst ext))) ->
  4 <= b_rows c ->
  exists P, synthesize c ext cs eqs consts calls inst = Some P.
Proof.
  intros EL known HL HE HK HD HI HIn Hr. unfold synthesize. rewrite EL. set (m := map _ _ ++ ext).
  assert (HM0 : forall d, known d -> exists x, find_p m d = Some (PAdv x) /\ fst x < b_ncols c).
  { intros d (v & i & Hv & Hi & ->). destruct (in_starts (b_rows c) cs v Hv) as (s & Hs). destruct (items_nth _ _ _ _ _ EL v s i Hs Hi) as (vv & q & w & E0 & _ & E1 & _ & E2).
    pose proof (cell_loc _ _ _ _ _ EL v s i w Hs E2) as E. exists (fst w). unfold m. rewrite find_p_app, find_p_adv, E. split; auto.
    refine (proj1 (layout_bounds _ _ _ _ _ Hr EL (mkPlm (vcell v i) vv q w) (fst w) _ _)); [|now left]. apply in_PL. exists v, s, i, vv, q, w. auto. }
  assert (HX : forall d, In d (map fst ext) -> find_p m d <> None).
  { intros d H. unfold m. rewrite find_p_app. destruct (find_p (map _ _) d); [discriminate|]. clear -H. induction ext as [|[a x] e IH]; [destruct H|]. rewrite find_p_cons. destruct (cell_eqb a d) eqn:E; [discriminate|].
    destruct H as [H|H]; auto. cbn in H. subst. rewrite (proj2 (cell_eqb_eq d d) eq_refl) in E. discriminate. }
  assert (HM : forall d, known d \/ In d (map fst ext) -> find_p m d <> None). { intros d [H|H]; auto. destruct (HM0 d H) as (x & E & _). rewrite E. discriminate. }
  assert (HLK : exists q w cp m1, (if with_range c then assign_lookups c calls m else Some ([], [], [], m)) = Some (q, w, cp, m1) /\ forall d, find_p m d <> None -> find_p m1 d <> None).
  { destruct (with_range c) eqn:EW; [|exists [], [], [], m; auto]. destruct (HL eq_refl) as [HL1 HL2].
    assert (HLE : exists q w cp m1, assign_lookups c calls m = Some (q, w, cp, m1)).
    { unfold assign_lookups. destruct (Nat.eqb (total_rows calls) 0); [eauto|]. destruct (single_col c) eqn:ES.
      - match goal with |- context [mapM ?f ?l] => destruct (mapM_some f l) as (q & ->) end; [|eauto].
        intros t Ht. apply in_order_out in Ht as (tg & Ht). destruct (HL1 _ _ Ht) as [Ha Hn]. destruct t as [|a t]; [congruence|]. destruct (Ha a ltac:(now left)) as (d & -> & Hd). destruct (HM0 d Hd) as ([g r] & -> & Hg).
        unfold single_col in ES. apply Nat.eqb_eq in ES. rewrite ES in Hg. cbn in Hg. assert (g = 0) as -> by lia. discriminate.
      - assert (Hn : 0 < b_nlk c) by now apply nlk_pos. rewrite lk_raw_idx by auto. destruct (lk_idx_total (b_nlk c) (b_rows c) (in_order calls) 0 m Hn) as ([[w cp] m1] & ->); [| |eauto].
        + rewrite (Permutation_length (in_order_perm calls)), map_length. cbn. auto.
        + intros t a Ht Ha. apply in_order_out in Ht as (tg & Ht). destruct (HL1 _ _ Ht) as [Hd _]. destruct (Hd a Ha) as (d & Ed & Hk). exists d. split; auto. }
    destruct HLE as (q & w & cp & m1 & E). exists q, w, cp, m1. split; auto. intros d Hd. destruct (find_p m d) as [x|] eqn:Ex; [|congruence]. rewrite (proj1 (lookups_ext _ _ _ _ _ _ _ E) d x Ex). discriminate. }
  destruct HLK as (q & w & cp & m1 & -> & Hm1).
  destruct (copy_total (b_nfix c) (b_rows c) eqs consts m1 HD) as (fx & cp2 & ->). { intros a b Hab. destruct (HE a b Hab). auto. } { intros k a Hka. eauto. }
  unfold assign_instances. rewrite (proj2 (Nat.eqb_eq _ _) HI).
  match goal with |- context [mapM ?f ?l] => destruct (mapM_some f l) as (icp & ->) end; [|eauto].
  intros [[i j] a] H. apply inst_enum in H as (col & H1 & H2). apply nth_error_In in H1, H2. destruct (HIn col a H1 H2) as (d & Ed & Hd). cbn. rewrite Ed. specialize (Hm1 d (HM d Hd)). destruct (find_p m1 d); congruence.
Qed.
(** the physical circuit does not depend on the order in which parallel threads recorded constraints *)
Theorem synth_order (c : params) ext (cs : list (vctx p)) eqs eqs' (consts consts' : list (Fp * cell)) (calls calls' : list (tag * list (AV p))) inst :
  Permutation eqs eqs' -> Permutation consts consts' -> (forall t, of_tag t calls = of_tag t calls') ->
  synthesize c ext cs eqs consts calls inst = synthesize c ext cs eqs' consts' calls' inst.
Proof.
  intros H1 H2 H3. unfold synthesize. destruct (assign_with_constraints _ _ _ _); auto.
  assert (EA : forall m, assign_lookups c calls m = assign_lookups c calls' m) by (intros m; unfold assign_lookups, total_rows, lookup_assign_raw; now rewrite (in_order_unique _ _ H3)).
  rewrite EA. destruct (if with_range c then _ else _) as [[[[q w] cp1] m1]|]; auto. now rewrite (copy_perm _ _ _ _ _ _ m1 H1 H2).
Qed.
End T.
