(** Property theorems C27-C31, C43, C44: from recorded constraints to the physical circuit (models: Synth.v, Threads.v, DynLookup.v, Layout.v).
    [synthesize c ext cs eqs consts calls inst = Some P]: building the circuit with parameters [c] from the contexts [cs], the recorded equalities [eqs],
    constant constraints [consts], lookup registrations [calls] and public instances [inst] did not panic and gave the physical circuit [P].
    [phys_sat c A P]: the assignment [A] of all physical cells satisfies its gates, copies, fixed cells and table lookups.
    [vval P A d]: the value [A] gives to the virtual cell [d]. *)
From Coq Require Import ZArith Znumtheory Lia List Bool Permutation.
From Verif Require Import Field Spec Context ContextProofs SatCheck Layout LayoutProofs LayoutProofs2 LayoutProofs3
  Synth SynthProofs SynthProofs2 SynthProofs3 Threads DynLookup Utils Logic Gate Range Api Pres ApiPres PropsContext PropsLayout.
Import ListNotations.
Local Open Scope nat_scope.

Section C27.
Context {p : positive}.
Notation Fp := (F p).
(** C27. Assigning the copy manager gives [fixed] (constant, fixed cell) and the copies [cp]. *)
Theorem C27_copies_imposed : forall (nfix rows : nat) (eqs : list (cell * cell)) (consts : list (Fp * cell)) (m : list (cell * pcell)) fixed cp,
  copy_assign_raw nfix rows eqs consts m = Some (fixed, cp) ->
  (* one fixed cell per distinct constant, inside the fixed columns *)
  NoDup (map fst fixed) /\ NoDup (map snd fixed) /\
  (forall k, In k (map fst fixed) <-> exists d, In (k, d) consts) /\
  (forall k x, In (k, x) fixed -> exists col row, x = PFix col row /\ col < nfix /\ row < rows) /\
  length fixed = num_distinct_constants consts /\
  (* an assignment that respects the copies and holds the constants in the fixed cells satisfies exactly the recorded constraints *)
  forall A : pcell -> Fp, (forall k x, In (k, x) fixed -> A x = k) ->
    let at_ d v := exists x, find_p m d = Some x /\ A x = v in
    ((forall x y, In (x, y) cp -> A x = A y) <->
     (forall a b, In (a, b) eqs -> exists v, at_ a v /\ at_ b v) /\ (forall k a, In (k, a) consts -> at_ a k)).
Proof.
  intros nfix rows eqs consts m fixed cp E. destruct (copy_fixed _ _ _ _ _ _ _ E) as (F1 & F2 & F3 & F4). do 4 (split; [assumption|]). split; [eapply copy_num_distinct; eauto|].
  intros A HF at_. split.
  - intros HC. split.
    + intros a b Hab. destruct (copy_eqs _ _ _ _ _ _ _ E a b Hab) as (x & y & Ha & Hb & Hxy). exists (A x). split; [exists x; auto|exists y; split; auto; symmetry; auto].
    + intros k a Hka. destruct (copy_consts _ _ _ _ _ _ _ E k a Hka) as (x & y & Hk & Ha & Hxy). exists y. split; auto. rewrite <- (HC _ _ Hxy). auto.
  - intros [H1 H2] x y Hxy. destruct (copy_only _ _ _ _ _ _ _ E x y Hxy) as [(a & b & Hab & Ha & Hb)|(k & a & Hka & Hk & Ha)].
    + destruct (H1 a b Hab) as (v & (x' & E1 & E1') & (y' & E2 & E2')). rewrite Ha in E1. rewrite Hb in E2. injection E1 as <-. injection E2 as <-. congruence.
    + destruct (H2 k a Hka) as (y' & E1 & E1'). rewrite Ha in E1. injection E1 as <-. rewrite E1'. auto.
Qed.
(** it panics exactly when there are more distinct constants than fixed cells or an end has no physical cell *)
Theorem C27_panics_iff : forall (nfix rows : nat) (eqs : list (cell * cell)) (consts : list (Fp * cell)) (m : list (cell * pcell)),
  copy_assign_raw nfix rows eqs consts m <> None <->
  num_distinct_constants consts <= nfix * rows /\
  (forall a b, In (a, b) eqs -> find_p m a <> None /\ find_p m b <> None) /\ (forall k a, In (k, a) consts -> find_p m a <> None).
Proof.
  intros nfix rows eqs consts m. split.
  - intros H. destruct (copy_assign_raw nfix rows eqs consts m) as [[fixed cp]|] eqn:E; [|congruence]. destruct (copy_fixed _ _ _ _ _ _ _ E) as (F1 & F2 & F3 & F4). split; [|split].
    + rewrite <- (copy_num_distinct _ _ _ _ _ _ _ E), <- (map_length snd fixed).
      assert (HL : length (flat_map (fun g => map (PFix g) (seq 0 rows)) (seq 0 nfix)) = nfix * rows).
      { clear. generalize 0 at 2. induction nfix as [|n IH]; intros k; cbn; auto. rewrite app_length, map_length, seq_length, IH. lia. }
      rewrite <- HL. apply NoDup_incl_length; auto. intros x Hx. apply in_map_iff in Hx as ([k y] & <- & Hx). destruct (F4 k y Hx) as (g & r & -> & Hg & Hr). cbn.
      apply in_flat_map. exists g. split; [apply in_seq; lia|]. apply in_map, in_seq. lia.
    + intros a b Hab. destruct (copy_eqs _ _ _ _ _ _ _ E a b Hab) as (x & y & -> & -> & _). split; discriminate.
    + intros k a Hka. destruct (copy_consts _ _ _ _ _ _ _ E k a Hka) as (x & y & _ & -> & _). discriminate.
  - intros (H1 & H2 & H3). destruct (copy_total nfix rows eqs consts m H1 H2 H3) as (fx & cp & ->). discriminate.
Qed.
(** [num_distinct_constants] counts the distinct constants *)
Theorem C27_num_distinct : forall (consts : list (Fp * cell)), exists l : list Fp,
  NoDup l /\ (forall k, In k l <-> exists d, In (k, d) consts) /\ num_distinct_constants consts = length l.
Proof. intros consts. destruct (num_distinct_spec consts) as (l & H1 & H2 & H3). exists l. auto. Qed.
End C27.
Print Assumptions C27_copies_imposed.
Print Assumptions C27_panics_iff.
Print Assumptions C27_num_distinct.
(** two fixed columns, three distinct constants out of four constant constraints, a copy; the result is not a panic *)
Example C27_ex : let d i := mkCell 0 0 i in let F z := of_Z 101 z in
  let m := map (fun i => (d i, PAdv (0, i))) (seq 0 6) in
  copy_assign_raw 2 4 [(d 3, d 1); (d 2, d 0)] [(F 7%Z, d 0); (F 5%Z, d 1); (F 7%Z, d 4); (F 100%Z, d 5)] m =
  Some ([(F 5%Z, PFix 0 0); (F 7%Z, PFix 1 0); (F 100%Z, PFix 0 1)],
        [(PAdv (0, 2), PAdv (0, 0)); (PAdv (0, 3), PAdv (0, 1)); (PFix 0 0, PAdv (0, 1)); (PFix 1 0, PAdv (0, 0)); (PFix 1 0, PAdv (0, 4)); (PFix 0 1, PAdv (0, 5))]).
Proof. vm_compute. reflexivity. Qed.

Section C28.
Context {p : positive}.
Notation Fp := (F p).
(** C28. CPU threads push to the shared managers; the managers see some interleaving of the threads' logs. Whatever the interleaving, the whole
    physical circuit (constants, ordered copies, ordered lookups, layout) is the same. Lookup registrations carry the tag of the context they
    were made in, and a context belongs to one thread. *)
Theorem C28_interleaving_irrelevant : forall (c : params) ext (cs : list (vctx p)) (leqs : list (list (cell * cell))) (lconsts : list (list (Fp * cell)))
    (lcalls : list (list (tag * list (AV p)))) inst eqs eqs' consts consts' calls calls',
  interleaving leqs eqs -> interleaving leqs eqs' -> interleaving lconsts consts -> interleaving lconsts consts' ->
  interleaving lcalls calls -> interleaving lcalls calls' ->
  (forall i j ti tj t x y, nth_error lcalls i = Some ti -> nth_error lcalls j = Some tj -> In (t, x) ti -> In (t, y) tj -> i = j) ->
  synthesize c ext cs eqs consts calls inst = synthesize c ext cs eqs' consts' calls' inst /\ in_order calls = in_order calls'.
Proof.
  intros c ext cs leqs lconsts lcalls inst eqs eqs' consts consts' calls calls' E1 E2 K1 K2 L1 L2 HD.
  assert (HT : forall t, of_tag t calls = of_tag t calls') by (intros t; rewrite (interleaving_tags _ _ L1 HD), (interleaving_tags _ _ L2 HD); reflexivity).
  split; [|now apply in_order_unique]. apply synth_order; auto.
  - transitivity (concat leqs); [apply Permutation_sym|]; now apply interleaving_perm.
  - transitivity (concat lconsts); [apply Permutation_sym|]; now apply interleaving_perm.
Qed.
(** every registered tuple is looked up exactly once *)
Theorem C28_lookups_complete : forall (calls : list (tag * list (AV p))), Permutation (in_order calls) (map snd calls).
Proof. intros. apply in_order_perm. Qed.
End C28.
Print Assumptions C28_interleaving_irrelevant.
Print Assumptions C28_lookups_complete.
Example C28_ex : let a i := mkAV (ATriv (of_Z 101 i)) (Some (mkCell 0 (Z.to_nat i) 0)) in
  let l := [[((0, 1), [a 1%Z]); ((0, 1), [a 2%Z])]; [((0, 0), [a 3%Z])]] in
  interleaving l [((0, 1), [a 1%Z]); ((0, 0), [a 3%Z]); ((0, 1), [a 2%Z])] /\ interleaving l [((0, 0), [a 3%Z]); ((0, 1), [a 1%Z]); ((0, 1), [a 2%Z])] /\
  in_order [((0, 1), [a 1%Z]); ((0, 0), [a 3%Z]); ((0, 1), [a 2%Z])] = [[a 3%Z]; [a 1%Z]; [a 2%Z]].
Proof.
  cbv zeta. set (a := fun i : Z => _). split; [|split; [|reflexivity]].
  - apply (il_step [] _ _ [_]). apply (il_step [_] _ _ []). apply (il_step [] _ _ [_]). constructor. repeat constructor.
  - apply (il_step [_] _ _ []). apply (il_step [] _ _ [_]). apply (il_step [] _ _ [_]). constructor. repeat constructor.
Qed.

(** C29. For every history of calls handing out contexts: tags are pairwise distinct, and a context's id is its position in its phase. *)
Theorem C29_tags_unique : forall (l : list top) (m : pools), top_run l pools0 = Some m ->
  NoDup (concat m) /\
  (forall ph ts i t, nth_error m ph = Some ts -> nth_error ts i = Some t -> t = (ph, i) /\ ph < 3).
Proof.
  intros l m H. pose proof (run_ok l _ _ pools0_ok H) as HO. split; [now apply pools_nodup|].
  intros ph ts i t Hp Hi. destruct (HO ph ts Hp) as [E1 E2]. rewrite E1, nth_error_map in Hi. destruct (nth_error (seq 0 (length ts)) i) as [k|] eqn:Es; [|discriminate]. injection Hi as <-.
  assert (Hl : i < length (seq 0 (length ts))) by (apply nth_error_Some; congruence). rewrite seq_length in Hl. rewrite (nth_error_nth' _ 0), seq_nth in Es by (rewrite ?seq_length; auto). injection Es as <-.
  split; auto. apply E2. intros ->. cbn in Hl. lia.
Qed.
(** the contexts handed to the closures of [parallelize_core] are new, distinct, and stored in input order whatever the schedule *)
Theorem C29_parallelize : forall (l : list top) (m : pools) ph n ts new ts', top_run l pools0 = Some m -> nth_error m ph = Some ts ->
  parallelize_core ph n ts = Some (new, ts') ->
  length new = n /\ ts' = ts ++ new /\ NoDup (concat m ++ new) /\ forall i t, nth_error new i = Some t -> t = (ph, length ts + i).
Proof.
  intros l m ph n ts new ts' H Hp E. pose proof (run_ok l _ _ pools0_ok H) as HO. unfold parallelize_core in E.
  destruct (new_contexts ph (length ts) n) as [nl|] eqn:EN; [|discriminate]. cbn in E. injection E as -> <-. apply new_contexts_spec in EN as [-> _].
  rewrite map_length, seq_length. split; auto. split; auto.
  assert (HN : forall i t, nth_error (map (fun i => (ph, i)) (seq (length ts) n)) i = Some t -> t = (ph, length ts + i)).
  { intros i t Hi. rewrite nth_error_map in Hi. destruct (nth_error (seq (length ts) n) i) as [k|] eqn:Es; [|discriminate]. injection Hi as <-.
    assert (Hl : i < length (seq (length ts) n)) by (apply nth_error_Some; congruence). rewrite seq_length in Hl. rewrite (nth_error_nth' _ 0), seq_nth in Es by (rewrite ?seq_length; auto). injection Es as <-. auto. }
  split; auto. pose proof (pools_nodup m HO) as ND. pose proof (fun t => pools_in m t HO) as HI.
  assert (NN : NoDup (map (fun i => (ph, i)) (seq (length ts) n))) by (apply FinFun.Injective_map_NoDup; [intros x y [= ->]; auto|apply seq_NoDup]).
  assert (HX : forall t, In t (concat m) -> ~ In t (map (fun i => (ph, i)) (seq (length ts) n))).
  { intros t Ht Hin. destruct (HI t Ht) as (ph' & ts1 & P1 & P2 & P3 & _). apply in_map_iff in Hin as (k & <- & Hk). cbn in *. subst ph'. rewrite Hp in P1. injection P1 as <-.
    assert (k < length ts) by (apply nth_error_Some; congruence). apply in_seq in Hk. lia. }
  clear -ND NN HX. induction (concat m) as [|t l IH]; cbn; auto. inversion ND; subst. constructor; [|apply IH; auto; intros; apply HX; now right].
  rewrite in_app_iff. intros [Hi|Hi]; auto. eapply HX; [now left|exact Hi].
Qed.
Print Assumptions C29_tags_unique.
Print Assumptions C29_parallelize.
Example C29_ex : top_run [TMain 0; TParallelize 0 3; TNewThread 1; TMain 0; TNewThread 0; TParallelize 1 2] pools0 =
  Some [[(0, 0); (0, 1); (0, 2); (0, 3); (0, 4)]; [(1, 0); (1, 1); (1, 2)]].
Proof. vm_compute. reflexivity. Qed.

Section C30.
Context {p : positive}.
Notation Fp := (F p).
(** C30: placement by the lookup manager with [n] > 0 groups of lookup columns of [usable] rows: the k-th tuple is at group [k mod n], row [k / n];
    its entries are written there and tied to their source cells. *)
Theorem C30_tuples_tied : forall (n usable : nat) (calls : list (tag * list (AV p))) (m : list (cell * pcell)) w cp m',
  0 < n -> lookup_assign_raw n usable calls m = Some (w, cp, m') ->
  (forall d x, find_p m d = Some x -> find_p m' d = Some x) /\
  forall k tup i a, nth_error (in_order calls) k = Some tup -> nth_error tup i = Some a ->
    let slot := PLk (k mod n) i (k / n) in
    k mod n < n /\ k / n < usable /\ In (slot, av_val a) w /\
    exists d x, av_cell a = Some d /\ find_p m' d = Some x /\ forall A : pcell -> Fp, (forall x y, In (x, y) cp -> A x = A y) -> A x = A slot.
Proof.
  intros n usable calls m w cp m' Hn E. rewrite lk_raw_idx in E by auto. apply lk_idx_spec in E as (H1 & H2 & _). split; auto.
  intros k tup i a Hk Hi slot. destruct (H2 k tup i a Hk Hi) as (d & x & G1 & G2 & G3 & G4 & G5). cbn [Nat.add] in *. split; [apply Nat.mod_upper_bound; lia|]. split; auto. split; auto.
  exists d, x. split; auto. split; auto. intros A HA. destruct G5 as [G5| ->]; auto.
Qed.
(** no two tuples share a row of a group *)
Theorem C30_rows_distinct : forall n k k', 0 < n -> k mod n = k' mod n -> k / n = k' / n -> k = k'.
Proof. intros n k k' Hn H1 H2. rewrite (Nat.div_mod k n), (Nat.div_mod k' n) by lia. congruence. Qed.
(** [num_advice_chunks] groups are enough: no panic when every looked-up cell was assigned; and one group less is a panic *)
Theorem C30_enough_chunks : forall (usable : nat) (calls : list (tag * list (AV p))) (m : list (cell * pcell)), 0 < usable -> calls <> [] ->
  (forall t tup a, In (t, tup) calls -> In a tup -> exists d, av_cell a = Some d /\ find_p m d <> None) ->
  lookup_assign_raw (num_advice_chunks usable (total_rows calls)) usable calls m <> None /\
  lookup_assign_raw (num_advice_chunks usable (total_rows calls) - 1) usable calls m = None.
Proof.
  intros usable calls m Hu Hne HK.
  assert (HT : total_rows calls = length calls). { unfold total_rows. now rewrite (Permutation_length (in_order_perm calls)), map_length. }
  assert (Hpos : 0 < length calls) by (destruct calls; [congruence|cbn; lia]).
  set (n := num_advice_chunks usable (total_rows calls)).
  assert (Hn : 0 < n). { unfold n, num_advice_chunks. rewrite HT. apply Nat.div_str_pos. lia. }
  assert (HL : length calls <= n * usable /\ (n - 1) * usable < length calls).
  { unfold n, num_advice_chunks. rewrite HT. set (x := length calls) in *. pose proof (Nat.div_mod (x + usable - 1) usable ltac:(lia)). pose proof (Nat.mod_upper_bound (x + usable - 1) usable ltac:(lia)). nia. }
  split.
  - rewrite lk_raw_idx by auto. destruct (lk_idx_total n usable (in_order calls) 0 m Hn) as (r & ->); [|intros t a Ht Ha; apply in_order_out in Ht as (tg & Ht); destruct (HK tg t a Ht Ha) as (d & E1 & E2); eauto|discriminate].
    unfold total_rows in HT. rewrite HT. cbn. lia.
  - destruct (lookup_assign_raw (n - 1) usable calls m) as [r|] eqn:E; auto. exfalso. destruct (Nat.eq_dec (n - 1) 0) as [Hz|Hz].
    + rewrite Hz in E. apply lk_raw_zero in E. unfold total_rows in HT. rewrite E in HT. cbn in HT. lia.
    + rewrite lk_raw_idx in E by lia. unfold total_rows in HT.
      assert (G : forall (l : list (list (AV p))) s m r, lk_idx (n - 1) usable s l m = Some r -> s + length l <= (n - 1) * usable \/ l = []).
      { clear -Hz. induction l as [|t l IH]; intros s m r E; auto. cbn [lk_idx] in E. destruct (Nat.ltb_spec (s / (n - 1)) usable); [|discriminate]. destruct (lk_tuple _ _ _ _ _) as [[[w cp] m1]|]; [|discriminate].
        destruct (lk_idx (n - 1) usable (S s) l m1) as [r'|] eqn:E2; [|discriminate]. left. destruct (IH _ _ _ E2) as [H1| ->]; [cbn; lia|]. cbn.
        pose proof (Nat.div_mod s (n - 1) ltac:(lia)). pose proof (Nat.mod_upper_bound s (n - 1) ltac:(lia)). nia. }
      destruct (G _ _ _ _ E) as [H| H]; [|rewrite H in HT; cbn in HT; lia]. rewrite HT in H. lia.
Qed.
(** the prover, which skips the constraints, writes the same lookup cells *)
Theorem C30_prover_writes_same : forall (n usable : nat) (calls : list (tag * list (AV p))) (m : list (cell * pcell)) w cp m',
  lookup_assign_raw n usable calls m = Some (w, cp, m') -> lk_wit n usable 0 0 (in_order calls) = Some w.
Proof. intros n usable calls m w cp m' E. unfold lookup_assign_raw in E. eapply lk_wit_same; eauto. Qed.
(** so in an accepted circuit with range lookups, every registered cell is in the table [0, 2^lb) *)
Theorem C30_lookups_enforced : forall (c : params) ext (cs : list (vctx p)) eqs consts (calls : list (tag * list (AV p))) inst P A lb,
  synthesize c ext cs eqs consts calls inst = Some P -> phys_sat c A P -> b_lb c = Some lb -> 0 < b_nlk c ->
  forall t a tl, In (t, a :: tl) calls -> exists d x, av_cell a = Some d /\ find_p (ph_map P) d = Some x /\ (val (A x) < 2 ^ Z.of_nat lb)%Z.
Proof.
  intros c ext cs eqs consts calls inst P A lb HS (HP & HC & HF & HL) Hlb Hn t a tl HI.
  assert (HW : with_range c = true) by (unfold with_range; rewrite Hlb; destruct (b_nlk c); [lia|auto]).
  destruct (synth_inv _ _ _ _ _ _ _ _ HS) as (cp1 & cp2 & icp & EL & EK & EC & EI & EP). rewrite HW in EK. destruct (HL HW lb Hlb) as [HL1 HL2].
  apply (lookups_sound _ _ _ _ _ _ _ A lb EK HW) with (t := t) (tl := tl); auto.
  - intros x y Hxy. apply HC. rewrite EP, !in_app_iff. auto.
  - intros r Hr. now apply range_table_iff, HL1.
  - intros HSg k r Hk Hr. now apply range_table_iff, HL2.
Qed.
(** Without the hypothesis [0 < b_nlk c] it is false: with [num_lookup_advice_per_phase = [0]] the builder configures a circuit without a table
    and silently drops the lookups of the range chip (circuit/mod.rs:79-92, 186-189). *)
Theorem C30_lookups_dropped_refuted : exists (c : params) (s : st 101) P A lb,
  api_context lb s /\ b_lb c = Some lb /\ 
  synthesize c [] [vctx_of s] (adv_eqs s) (const_eqs s) (map (fun e => (fst e, [snd e])) (lookups s)) [] = Some P /\ phys_sat c A P /\
  exists t a d x, In (t, a) (lookups s) /\ av_cell a = Some d /\ find_p (ph_map P) d = Some x /\ ~ (val (A x) < 2 ^ Z.of_nat lb)%Z.
Proof.
  set (c := mkParams 2 1 0 (Some 3) 20 0).
  set (l := [OLoadWitness (of_Z 101 9); ORangeCheck 0 3]).
  destruct (run_prog 3 l [] (new_ctx false 0 0 0)) as [[r s]|] eqn:E; [|vm_compute in E; discriminate].
  destruct (synthesize c [] [vctx_of s] (adv_eqs s) (const_eqs s) (map (fun e => (fst e, [snd e])) (lookups s)) []) as [P|] eqn:EP; [|vm_compute in E; injection E as <- <-; vm_compute in EP; discriminate].
  exists c, s, P, (fun _ => of_Z 101 9), 3. split; [exists 0, 0, 0, l, r; split; auto; repeat constructor|]. split; auto. split; auto.
  vm_compute in E. injection E as <- <-. vm_compute in EP. injection EP as <-. split.
  - split; [split; [intros; reflexivity|intros ? ? []]|]. split; [intros; reflexivity|]. split; [intros ? ? []|]. intros H. vm_compute in H. discriminate.
  - eexists _, _, _, _. split; [now left|]. split; [reflexivity|]. split; [vm_compute; reflexivity|]. vm_compute. discriminate.
Qed.
End C30.
Print Assumptions C30_tuples_tied.
Print Assumptions C30_rows_distinct.
Print Assumptions C30_enough_chunks.
Print Assumptions C30_prover_writes_same.
Print Assumptions C30_lookups_enforced.
Print Assumptions C30_lookups_dropped_refuted.

Section C31.
Context {p : positive}.
Notation Fp := (F p).
(** C31. For any history of table and key assignments on one dynamic lookup config, in any satisfying assignment (blinded table rows arbitrary):
    every key equals, entry by entry, a row of one of the assigned tables. *)
Theorem C31_keys_in_table : forall (n K usable total : nat) (m : list (cell * pcell)) (l : list dcall) (D : dphys) (A : pcell -> Fp),
  dyn_run n K usable (dyn0 m) l = Some D -> dyn_sat n K usable total A D ->
  (forall off rows t, In (DTable off rows) l -> In t rows -> length t = K) ->
  forall off keys t, In (DKeys off keys) l -> In t keys -> length t = K ->
  exists off' rows u, In (DTable off' rows) l /\ In u rows /\ map (dval D A) t = map (dval D A) u.
Proof. intros n K usable total m l D A. apply dyn_sound. Qed.
(** Conversely: if the values [sg] of the keys all occur in the table, the physical lookup columns can be filled. *)
Theorem C31_honest_accepted : forall (n K usable total : nat) (m : list (cell * pcell)) (toff koff : nat) (rows keys : list (list (AV p))) (D : dphys) (sg : cell -> Fp) (A0 : pcell -> Fp),
  dyn_run n K usable (dyn0 m) [DTable toff rows; DKeys koff keys] = Some D -> usable <= total ->
  (forall d x, find_p m d = Some x -> A0 x = sg d /\ forall s j r, x <> PLk s j r) ->
  (forall u, In u rows -> length u = K) -> (forall t, In t keys -> length t = K) ->
  (forall t, In t keys -> exists u, In u rows /\ map (avs sg) t = map (avs sg) u) ->
  exists A, dyn_sat n K usable total A D /\ (forall x, (forall s j r, x <> PLk s j r) -> A x = A0 x) /\ (forall d x, find_p (dp_map D) d = Some x -> A x = sg d).
Proof. exact dyn_complete. Qed.
End C31.
Print Assumptions C31_keys_in_table.
Print Assumptions C31_honest_accepted.
Definition dyn_ex_av (i : nat) (v : Z) : AV 101 := mkAV (ATriv (of_Z 101 v)) (Some (mkCell 0 0 i)).
Example C31_ex : exists D, dyn_run 2 2 10 (dyn0 (map (fun i => (mkCell 0 0 i, PAdv (0, i))) (seq 0 8)))
   [DTable 0 [[dyn_ex_av 0 5%Z; dyn_ex_av 1 6%Z]; [dyn_ex_av 2 0%Z; dyn_ex_av 3 7%Z]]; DKeys 0 [[dyn_ex_av 4 0%Z; dyn_ex_av 5 7%Z]; [dyn_ex_av 6 5%Z; dyn_ex_av 7 6%Z]; [dyn_ex_av 6 5%Z; dyn_ex_av 7 6%Z]]] = Some D
   /\ dp_ken D = [(0, 0); (1, 0); (0, 1)] /\ dp_ten D = [(0, true); (1, true); (2, false)] /\ length (dp_cp D) = 10.
Proof. eexists. split; [vm_compute; reflexivity|]. vm_compute. auto. Qed.

Section C43.
Context {p : positive}.
Notation Fp := (F p).
Definition lk_calls (ss : list (st p)) : list (tag * list (AV p)) := map (fun e => (fst e, [snd e])) (flat_map lookups ss).
Lemma api_geometry lb (ss : list (st p)) : Forall (api_context lb) ss ->
  (forall v i, In v (map vctx_of ss) -> nth_error (vc_sel v) i = Some true -> i + 3 < length (vc_adv v)) /\
  (forall v, In v (map vctx_of ss) -> ~ (nth_error (vc_sel v) 0 = Some true /\ nth_error (vc_sel v) 1 = Some true)).
Proof.
  intros HA. rewrite Forall_forall in HA. split.
  - intros v i Hv Hi. apply in_map_iff in Hv as (s & <- & Hs). destruct (HA s Hs) as (ph & tid & cid & l & r & Hok & E). exact (proj1 (C22_gates_inside_and_apart _ _ _ _ _ _ _ _ Hok E) i Hi).
  - intros v Hv [E0 E1]. apply in_map_iff in Hv as (s & <- & Hs). destruct (HA s Hs) as (ph & tid & cid & l & r & Hok & E).
    pose proof (proj1 (proj2 (C22_gates_inside_and_apart _ _ _ _ _ _ _ _ Hok E)) 0 1 E0 E1 ltac:(lia)). lia.
Qed.
(** C43 (end to end). Contexts [ss] built by API programs; the managers hold, in any order, their constraints plus any extra equalities and
    constants (copies between contexts, external cells). If the circuit is built with range lookups on, then the physical circuit is
    equivalent to all the constraints recorded by all the contexts. *)
Theorem C43_physical_implies_virtual : forall (lb : nat) (c : params) ext (ss : list (st p)) xeqs xconsts eqs consts calls inst P A,
  4 <= b_rows c -> b_lb c = Some lb -> 0 < b_nlk c -> Forall (api_context lb) ss ->
  Permutation eqs (flat_map adv_eqs ss ++ xeqs) -> Permutation consts (flat_map const_eqs ss ++ xconsts) -> Permutation calls (lk_calls ss) ->
  synthesize c ext (map vctx_of ss) eqs consts calls inst = Some P -> phys_sat c A P ->
  (forall s, In s ss -> Sat lb (vval P A) s) /\
  (forall a b, In (a, b) xeqs -> vval P A a = vval P A b) /\ (forall k a, In (k, a) xconsts -> vval P A a = k).
Proof.
  intros lb c ext ss xeqs xconsts eqs consts calls inst P A Hr Hlb Hn HA HE HK HL HS HP.
  destruct (api_geometry lb ss HA) as [G1 G2].
  assert (HW : with_range c = true) by (unfold with_range; rewrite Hlb; destruct (b_nlk c); [lia|auto]).
  destruct (synth_sound c ext (map vctx_of ss) eqs consts calls inst P HS Hr G1 G2 A HP) as (S1 & S2 & S3 & S4 & _).
  assert (HE' : forall e, In e (flat_map adv_eqs ss ++ xeqs) -> In e eqs) by (intros e; apply Permutation_in, Permutation_sym, HE).
  assert (HK' : forall e, In e (flat_map const_eqs ss ++ xconsts) -> In e consts) by (intros e; apply Permutation_in, Permutation_sym, HK).
  split; [|split].
  - intros s Hs. constructor.
    + intros i Hi. exact (S1 (vctx_of s) i (in_map vctx_of ss s Hs) Hi).
    + intros a b Hab. apply S2, HE', in_or_app. left. apply in_flat_map. eauto.
    + intros k a Hka. apply S3, HK', in_or_app. left. apply in_flat_map. eauto.
    + intros t a Hta. split; [apply val_bounds|]. apply (S4 HW lb Hlb t a []). eapply Permutation_in; [apply Permutation_sym, HL|]. unfold lk_calls. apply in_map_iff. exists (t, a). split; auto. apply in_flat_map. eauto.
  - intros a b Hab. apply S2, HE', in_or_app. auto.
  - intros k a Hka. apply S3, HK', in_or_app. auto.
Qed.
Theorem C43_virtual_implies_physical : forall (lb : nat) (c : params) (ext : list (cell * pcell)) (ss : list (st p)) xeqs xconsts eqs consts calls inst P (sg : cell -> Fp) (sge : nat -> Fp),
  4 <= b_rows c -> b_lb c = Some lb -> Forall (api_context lb) ss ->
  Permutation eqs (flat_map adv_eqs ss ++ xeqs) -> Permutation consts (flat_map const_eqs ss ++ xconsts) -> Permutation calls (lk_calls ss) ->
  synthesize c ext (map vctx_of ss) eqs consts calls inst = Some P ->
  (forall d x, In (d, x) ext -> exists n, x = PExt n /\ sg d = sge n) ->
  (forall s, In s ss -> Sat lb sg s) -> (forall a b, In (a, b) xeqs -> sg a = sg b) -> (forall k a, In (k, a) xconsts -> sg a = k) ->
  exists A, phys_sat c A P /\ (forall n, A (PExt n) = sge n) /\ (forall d, find_p (ph_map P) d <> None -> vval P A d = sg d) /\
    (forall s i, In s ss -> i < length (advice s) -> vval P A (mkCell (s_tid s) (s_cid s) i) = sg (mkCell (s_tid s) (s_cid s) i)).
Proof.
  intros lb c ext ss xeqs xconsts eqs consts calls inst P sg sge Hr Hlb HA HE HK HL HS Hext Hsat He Hk.
  destruct (api_geometry lb ss HA) as [G1 G2].
  assert (Hg : vgates sg (map vctx_of ss)). { intros v i Hv Hi. apply in_map_iff in Hv as (s & <- & Hs). exact (sat_gate _ _ _ (Hsat s Hs) i Hi). }
  assert (He' : forall a b, In (a, b) eqs -> sg a = sg b).
  { intros a b Hab. eapply Permutation_in in Hab; [|exact HE]. apply in_app_or in Hab as [Hab|Hab]; auto. apply in_flat_map in Hab as (s & Hs & Hab). exact (sat_eq _ _ _ (Hsat s Hs) a b Hab). }
  assert (Hk' : forall k a, In (k, a) consts -> sg a = k).
  { intros k a Hab. eapply Permutation_in in Hab; [|exact HK]. apply in_app_or in Hab as [Hab|Hab]; auto. apply in_flat_map in Hab as (s & Hs & Hab). exact (sat_const _ _ _ (Hsat s Hs) k a Hab). }
  assert (Hl' : with_range c = true -> forall lb', b_lb c = Some lb' -> forall t a tl, In (t, a :: tl) calls -> (val (avs sg a) < 2 ^ Z.of_nat lb')%Z).
  { intros _ lb' Hlb' t a tl Hc. rewrite Hlb in Hlb'. injection Hlb' as <-. eapply Permutation_in in Hc; [|exact HL]. unfold lk_calls in Hc. apply in_map_iff in Hc as ([t' a'] & Ec & Hc). cbn in Ec. injection Ec as -> -> _.
    apply in_flat_map in Hc as (s & Hs & Hc). apply (sat_lookup _ _ _ (Hsat s Hs) t a Hc). }
  exists (phys_of c (map vctx_of ss) calls inst P sg sge). split; [eapply synth_complete; eauto|]. split; [reflexivity|].
  assert (HV : forall d, find_p (ph_map P) d <> None -> vval P (phys_of c (map vctx_of ss) calls inst P sg sge) d = sg d) by (intros d Hd; eapply vval_of; eauto).
  split; auto. intros s i Hs Hi. apply HV. destruct (synth_inv _ _ _ _ _ _ _ _ HS) as (cp1 & cp2 & icp & EL & _).
  destruct (asg_of_loc _ _ _ _ _ EL (fun _ => F0) (vctx_of s) i (in_map vctx_of ss s Hs) Hi) as (x & E & _). pose proof (proj1 (synth_ext _ _ _ _ _ _ _ _ HS) _ _ E) as EE. unfold vcell in EE. cbn in EE. rewrite EE. discriminate.
Qed.
(** enough resources: no panic *)
Theorem C43_no_panic : forall (lb : nat) (c : params) (ss : list (st p)) eqs consts calls inst,
  4 <= b_rows c -> Forall (api_context lb) ss -> NoDup (map (fun s => (s_tid s, s_cid s)) ss) ->
  Permutation eqs (flat_map adv_eqs ss) -> Permutation consts (flat_map const_eqs ss) -> Permutation calls (lk_calls ss) ->
  length (flat_map advice ss) <= b_ncols c * (b_rows c - 3) ->
  length (flat_map lookups ss) <= b_nlk c * b_rows c ->
  num_distinct_constants consts <= b_nfix c * b_rows c ->
  length inst = b_ninst c -> (forall col a, In col inst -> In a col -> exists s i, In s ss /\ i < length (advice s) /\ av_cell a = Some (mkCell (s_tid s) (s_cid s) i)) ->
  exists P, synthesize c [] (map vctx_of ss) eqs consts calls inst = Some P.
Proof.
  intros lb c ss eqs consts calls inst Hr HA HD HE HK HL H1 H2 H3 H4 H5.
  destruct (C26_enough_columns_partial lb (b_ncols c) (b_rows c) ss Hr HA HD H1) as (L & EL).
  rewrite Forall_forall in HA.
  assert (KN : forall s i, In s ss -> i < length (advice s) -> exists v j, In v (map vctx_of ss) /\ j < length (vc_adv v) /\ mkCell (s_tid s) (s_cid s) i = vcell v j).
  { intros s i Hs Hi. exists (vctx_of s), i. split; [now apply in_map|]. auto. }
  assert (TG : forall s, In s ss -> (forall a b, In (a, b) (adv_eqs s) -> (exists i, i < length (advice s) /\ a = mkCell (s_tid s) (s_cid s) i) /\ exists i, i < length (advice s) /\ b = mkCell (s_tid s) (s_cid s) i) /\
      (forall k a, In (k, a) (const_eqs s) -> exists i, i < length (advice s) /\ a = mkCell (s_tid s) (s_cid s) i) /\
      (forall t a, In (t, a) (lookups s) -> exists i, i < length (advice s) /\ av_cell a = Some (mkCell (s_tid s) (s_cid s) i))).
  { intros s Hs. destruct (HA s Hs) as (ph & tid & cid & l & r & Hok & E). destruct (C22_gates_inside_and_apart _ _ _ _ _ _ _ _ Hok E) as (_ & _ & I3 & I4 & I5 & _).
    destruct (pres_prog lb l [] Hok _ _ _ (inv_new ph tid cid) (Forall_nil _) E) as (_ & X & _). rewrite (ext_tid _ _ X), (ext_cid _ _ X). cbn [s_tid s_cid new_ctx]. split; [|split].
    - intros a b Hab. destruct (I3 a b Hab) as [(i & -> & Hi) (j & -> & Hj)]. eauto 8.
    - intros k a Hka. destruct (I4 k a Hka) as (i & -> & Hi). eauto.
    - intros t a Hta. destruct (I5 t a Hta) as (_ & i & Ei & Hi). exists i. split; auto. apply nth_error_Some. congruence. }
  apply (synth_total c [] (map vctx_of ss) eqs consts calls inst L EL); auto.
  - intros HW. split.
    + intros t tup Hc. eapply Permutation_in in Hc; [|exact HL]. unfold lk_calls in Hc. apply in_map_iff in Hc as ([t' a'] & Ec & Hc). cbn in Ec. injection Ec as -> <-. split; [|discriminate].
      intros a [<-|[]]. apply in_flat_map in Hc as (s & Hs & Hc). destruct (TG s Hs) as (_ & _ & T3). destruct (T3 t a' Hc) as (i & Hi & Ei). eexists. split; [exact Ei|]. now apply KN.
    + intros _. rewrite (Permutation_length HL). unfold lk_calls. now rewrite map_length.
  - intros a b Hab. eapply Permutation_in in Hab; [|exact HE]. apply in_flat_map in Hab as (s & Hs & Hab). destruct (TG s Hs) as (T1 & _ & _). destruct (T1 a b Hab) as [(i & Hi & ->) (j & Hj & ->)]. split; left; now apply KN.
  - intros k a Hab. eapply Permutation_in in Hab; [|exact HK]. apply in_flat_map in Hab as (s & Hs & Hab). destruct (TG s Hs) as (_ & T2 & _). destruct (T2 k a Hab) as (i & Hi & ->). left. now apply KN.
  - intros col a Hc Ha. destruct (H5 col a Hc Ha) as (s & i & Hs & Hi & Ea). eexists. split; [exact Ea|]. left. now apply KN.
Qed.
(** C44. Public instances: in every satisfying assignment, row [j] of instance column [i] has the value of the j-th assigned instance of that column;
    and all exposed values are available as instance values. *)
Theorem C44_instances_exposed : forall (c : params) ext (cs : list (vctx p)) eqs consts (calls : list (tag * list (AV p))) inst P A,
  synthesize c ext cs eqs consts calls inst = Some P -> phys_sat c A P ->
  length inst = b_ninst c /\
  forall i j col a, nth_error inst i = Some col -> nth_error col j = Some a -> exists d x, av_cell a = Some d /\ find_p (ph_map P) d = Some x /\ A (PInst i j) = A x.
Proof.
  intros c ext cs eqs consts calls inst P A HS (_ & HC & _). destruct (synth_inv _ _ _ _ _ _ _ _ HS) as (cp1 & cp2 & icp & EL & EK & EC & EI & EP).
  destruct (inst_spec _ _ _ _ EI) as (H0 & H & _). split; auto. intros i j col a Hi Hj. destruct (H i j col a Hi Hj) as (d & x & Ed & Ex & Hx). exists d, x. split; auto. split; auto.
  apply HC. rewrite EP, !in_app_iff. auto.
Qed.
End C43.
Print Assumptions C43_physical_implies_virtual.
Print Assumptions C43_virtual_implies_physical.
Print Assumptions C43_no_panic.
Print Assumptions C44_instances_exposed.
(** two contexts built by API programs, laid out in 6 columns, with lookups, constants and one public instance *)
Definition syn_ex_ss : list (st 101) :=
  flat_map (fun id => match run_prog 3 (ex_prog five three) [] (new_ctx false 0 0 id) with Some (_, s) => [s] | None => [] end) [0; 1].
Definition syn_ex_params : params := mkParams 6 2 3 (Some 3) 40 1.
Example C43_ex : exists P, synthesize syn_ex_params [] (map vctx_of syn_ex_ss) (flat_map adv_eqs syn_ex_ss) (flat_map const_eqs syn_ex_ss) (lk_calls syn_ex_ss)
    [[mkAV (ATriv five) (Some (mkCell 0 1 0))]] = Some P
  /\ length syn_ex_ss = 2 /\ 20 < length (ph_copies P) /\ 2 < length (ph_fixed P) /\ 3 < length (ph_lwr P) /\ 10 < length (l_en (ph_lay P)).
Proof.
  match goal with |- exists P, ?x = Some P /\ _ => destruct x as [P|] eqn:E; [|vm_compute in E; discriminate] end.
  exists P. split; auto. vm_compute in E. injection E as <-. vm_compute. repeat split; repeat constructor.
Qed.
