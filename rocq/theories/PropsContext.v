(** Property theorems C18-C22: the execution model of a context under arbitrary programs over the public API.
    A program is a list of [op] (Api.v): calls of GateChip, RangeChip and Context methods whose arguments are fresh witnesses, constants or
    results of earlier calls. [run_prog lb l []] runs it from an empty environment; a panic is [None]. *)
From Coq Require Import ZArith Znumtheory Lia List Bool.
From Verif Require Import Field Spec Context ContextProofs Utils Logic Gate Range Rel RelGate RelRange Api ApiRel Pres PresGate PresRange ApiPres SatCheck.
Import ListNotations.
Local Open Scope Z_scope.
Local Open Scope monad_scope.

(** an example program touching most kinds of constraint: x = 5, y = 3 witnesses; x*y; is_zero; range check; division; select *)
Definition ex_prog (x y : F 101) : list (op 101) :=
  [OLoadWitness x; OLoadWitness y; OMul (Ref 0) (Ref 1); OLoadZero; OIsZero 1; ORangeCheck 0 5; OAdd (Ref 2) (Cst (of_Z 101 7));
   OSelect (Ref 0) (Wit y) (Ref 4); OIdxToIndicator (Ref 1) 5; OLoadZero; OInnerProduct [Ref 0; Cst F1] [Ref 1; Ref 2]; OIsLessThan (Ref 1) (Ref 0) 3].
Definition five : F 101 := of_Z 101 5.
Definition three : F 101 := of_Z 101 3.

Section C18.
Context (p : positive) (lb : nat) (ph tid cid : nat).
(** C18: for every program, if the keygen run does not panic then neither does the witness-generation-only run; the two produce the
    same advice column, the same looked-up values in the same order, the same returned values, and the latter records no constraint. *)
Theorem C18_witness_gen_equals_keygen : forall (l : list (op p)) (r : list (AV p)) (s : st p),
  run_prog lb l [] (new_ctx false ph tid cid) = Some (r, s) ->
  exists (r' : list (AV p)) (s' : st p), run_prog lb l [] (new_ctx true ph tid cid) = Some (r', s') /\
    map av_val r' = map av_val r /\
    advice s' = advice s /\
    map (fun e => (fst e, av_val (snd e))) (lookups s') = map (fun e => (fst e, av_val (snd e))) (lookups s) /\
    selector s' = [] /\ adv_eqs s' = [] /\ const_eqs s' = [].
Proof.
  intros l r s E. pose proof (rel_prog_W lb l [] [] (Forall2_nil _) _ _ (stR_new true ph tid cid) _ E) as H.
  destruct (run_prog lb l [] (new_ctx true ph tid cid)) as [[r' s']|]; [|discriminate]. destruct H as [HR HS]. cbn [fst snd] in *.
  exists r', s'. split; auto. split; [|split; [|split]].
  - clear -HR. induction HR as [|x y l l' Hxy _ IH]; cbn; auto. unfold Rel.avR in Hxy. congruence.
  - symmetry. exact (r_adv _ _ HS).
  - pose proof (r_lk _ _ HS) as HL. clear -HL. induction HL as [|x y l l' [H1 H2] _ IH]; cbn; auto. unfold Rel.avR in H2. congruence.
  - split; [exact (r_sel _ _ HS)|]. split; [exact (r_eqs _ _ HS)|exact (r_cst _ _ HS)].
Qed.
End C18.
Print Assumptions C18_witness_gen_equals_keygen.
Example C18_ex : exists r s, run_prog 3 (ex_prog five three) [] (new_ctx false 0 0 0) = Some (r, s) /\
  (length r = 15 /\ 50 < length (advice s) /\ 3 < length (lookups s) /\ 20 < length (adv_eqs s))%nat.
Proof.
  destruct (run_prog 3 (ex_prog five three) [] (new_ctx false 0 0 0)) as [[r s]|] eqn:E; [|vm_compute in E; discriminate].
  exists r, s. split; auto. vm_compute in E. injection E as <- <-. cbn. lia.
Qed.

Section C19.
Context (p : positive) (lb : nat) (ph tid cid : nat).
(** C19: two runs of programs that differ only in witness values record the same selectors, copy constraints, constants and lookups, on the same
    cells, and return the same cells - unless one of them panics. *)
Theorem C19_shape_independent_of_witness : forall (l1 l2 : list (op p)) r1 s1 r2 s2,
  same_shape l1 l2 ->
  run_prog lb l1 [] (new_ctx false ph tid cid) = Some (r1, s1) ->
  run_prog lb l2 [] (new_ctx false ph tid cid) = Some (r2, s2) ->
  length (advice s1) = length (advice s2) /\ selector s1 = selector s2 /\ adv_eqs s1 = adv_eqs s2 /\ const_eqs s1 = const_eqs s2 /\
  map (fun e => (fst e, av_cell (snd e))) (lookups s1) = map (fun e => (fst e, av_cell (snd e))) (lookups s2) /\
  map av_cell r1 = map av_cell r2.
Proof.
  intros l1 l2 r1 s1 r2 s2 HSh E1 E2.
  pose proof (rel_prog_S lb l1 l2 [] [] HSh (Forall2_nil _) _ _ (stR_new false ph tid cid) _ E1) as H.
  rewrite E2 in H. destruct H as [HR HS]. cbn [fst snd] in *.
  split; [exact (r_adv _ _ HS)|]. split; [symmetry; exact (r_sel _ _ HS)|]. split; [symmetry; exact (r_eqs _ _ HS)|]. split; [symmetry; exact (r_cst _ _ HS)|]. split.
  - pose proof (r_lk _ _ HS) as HL. clear -HL. induction HL as [|x y l l' [H1 H2] _ IH]; cbn; auto. unfold Rel.avR in H2. congruence.
  - clear -HR. induction HR as [|x y l l' Hxy _ IH]; cbn; auto. unfold Rel.avR in Hxy. congruence.
Qed.
(** so an assignment satisfies the constraints recorded by the one run iff it satisfies those recorded by the other *)
Theorem C19_same_constraints : forall (l1 l2 : list (op p)) r1 s1 r2 s2,
  same_shape l1 l2 ->
  run_prog lb l1 [] (new_ctx false ph tid cid) = Some (r1, s1) ->
  run_prog lb l2 [] (new_ctx false ph tid cid) = Some (r2, s2) ->
  forall sg, Sat lb sg s1 <-> Sat lb sg s2.
Proof.
  intros l1 l2 r1 s1 r2 s2 HSh E1 E2.
  pose proof (C19_shape_independent_of_witness _ _ _ _ _ _ HSh E1 E2) as (_ & H2 & H3 & H4 & H5 & _).
  pose proof (rel_prog_S lb l1 l2 [] [] HSh (Forall2_nil _) _ _ (stR_new false ph tid cid) _ E1) as H.
  rewrite E2 in H. destruct H as [_ HS]. cbn [fst snd] in *.
  assert (HC : forall i, cl s1 i = cl s2 i) by (intros; unfold cl; now rewrite (r_tid _ _ HS), (r_cid _ _ HS)).
  assert (HL : forall (l l' : list (tag * AV p)), map (fun e => (fst e, av_cell (snd e))) l = map (fun e => (fst e, av_cell (snd e))) l' ->
    forall t a, In (t, a) l -> exists b, In (t, b) l' /\ av_cell a = av_cell b).
  { intros l l' E t a Hin. apply (in_map (fun e => (fst e, av_cell (snd e)))) in Hin. rewrite E in Hin. apply in_map_iff in Hin as ([t' b] & Hb & Hin).
    cbn in Hb. injection Hb as -> Hb. eauto. }
  intros sg. split; intros [S1 S2 S3 S4]; constructor.
  - intros i Hi. rewrite <- H2 in Hi. specialize (S1 i Hi). unfold gate_at in *. now rewrite <- !HC.
  - rewrite <- H3. auto.
  - rewrite <- H4. auto.
  - intros t a Hin. destruct (HL _ _ (eq_sym H5) t a Hin) as (b & Hb & Hc). specialize (S4 t b Hb). unfold avs in *. now rewrite Hc.
  - intros i Hi. rewrite H2 in Hi. specialize (S1 i Hi). unfold gate_at in *. now rewrite !HC.
  - rewrite H3. auto.
  - rewrite H4. auto.
  - intros t a Hin. destruct (HL _ _ H5 t a Hin) as (b & Hb & Hc). specialize (S4 t b Hb). unfold avs in *. now rewrite Hc.
Qed.
End C19.
Print Assumptions C19_shape_independent_of_witness.
Print Assumptions C19_same_constraints.
Example C19_ex : same_shape (ex_prog five three) (ex_prog three (of_Z 101 0)) /\ ex_prog five three <> ex_prog three (of_Z 101 0) /\
  (exists r s, run_prog 3 (ex_prog five three) [] (new_ctx false 0 0 0) = Some (r, s)) /\
  exists r s, run_prog 3 (ex_prog three (of_Z 101 0)) [] (new_ctx false 0 0 0) = Some (r, s).
Proof.
  split; [reflexivity|]. split; [intros H; apply (f_equal (fun l => match l with OLoadWitness a :: _ => val a | _ => 0 end)) in H; vm_compute in H; discriminate|].
  split.
  - destruct (run_prog 3 (ex_prog five three) [] (new_ctx false 0 0 0)) as [[r s]|] eqn:E; [eauto|vm_compute in E; discriminate].
  - destruct (run_prog 3 (ex_prog three (of_Z 101 0)) [] (new_ctx false 0 0 0)) as [[r s]|] eqn:E; [eauto|vm_compute in E; discriminate].
Qed.

Section C20.
Context (p : positive) (lb : nat) (ph tid cid : nat).
Lemma run_prog_app (l1 l2 : list (op p)) : forall e s, run_prog lb (l1 ++ l2) e s = bind (run_prog lb l1 e) (run_prog lb l2) s.
Proof.
  induction l1 as [|o l1 IH]; intros e s; cbn [app run_prog]; [reflexivity|]. unfold bind. destruct (exec lb o e s) as [[r s1]|]; auto. rewrite IH. reflexivity.
Qed.
(** C20: continuing any program never removes or alters a recorded advice value, gate, equality, constant or lookup; hence every assignment
    satisfying the later context satisfies the earlier one. ([op_ok]: select_by_indicator gets at least as many indicators as values.) *)
Theorem C20_constraints_never_lost : forall (l1 l2 : list (op p)) r1 s1 r2 s2, Forall op_ok (l1 ++ l2) ->
  run_prog lb l1 [] (new_ctx false ph tid cid) = Some (r1, s1) ->
  run_prog lb (l1 ++ l2) [] (new_ctx false ph tid cid) = Some (r2, s2) ->
  (exists v, advice s2 = advice s1 ++ v) /\ (exists v, adv_eqs s2 = adv_eqs s1 ++ v) /\ (exists v, const_eqs s2 = const_eqs s1 ++ v) /\
  (exists v, lookups s2 = lookups s1 ++ v) /\
  (forall i, nth_error (selector s1) i = Some true -> nth_error (selector s2) i = Some true) /\
  forall sg, Sat lb sg s2 -> Sat lb sg s1.
Proof.
  intros l1 l2 r1 s1 r2 s2 Hok E1 E2. apply Forall_app in Hok as [Hok1 Hok2].
  rewrite run_prog_app in E2. unfold bind in E2. rewrite E1 in E2.
  destruct (pres_prog lb l1 [] Hok1 _ _ _ (inv_new ph tid cid) (Forall_nil _) E1) as (I1 & X1 & F1).
  destruct (pres_prog lb l2 r1 Hok2 _ _ _ I1 F1 E2) as (I2 & X2 & F2).
  split; [exact (ext_adv _ _ X2)|]. split; [exact (ext_eqs _ _ X2)|]. split; [exact (ext_con _ _ X2)|]. split; [exact (ext_lk _ _ X2)|].
  split; [exact (ext_sel _ _ X2)|]. intros sg. now apply sat_mono.
Qed.

(** C22: after any program every enabled gate lies inside the context, no two enabled gates start at distance 1 or 2, and every copy, constant and
    lookup constraint refers to an assigned cell of the context. *)
Theorem C22_gates_inside_and_apart : forall (l : list (op p)) r s, Forall op_ok l ->
  run_prog lb l [] (new_ctx false ph tid cid) = Some (r, s) ->
  (forall i, nth_error (selector s) i = Some true -> (i + 3 < length (advice s))%nat) /\
  (forall i j, nth_error (selector s) i = Some true -> nth_error (selector s) j = Some true -> (i < j)%nat -> (i + 3 <= j)%nat) /\
  (forall a b, In (a, b) (adv_eqs s) -> (exists i, a = mkCell tid cid i /\ (i < length (advice s))%nat) /\ exists i, b = mkCell tid cid i /\ (i < length (advice s))%nat) /\
  (forall c a, In (c, a) (const_eqs s) -> exists i, a = mkCell tid cid i /\ (i < length (advice s))%nat) /\
  (forall t a, In (t, a) (lookups s) -> t = (tid, cid) /\ exists i, av_cell a = Some (mkCell tid cid i) /\ nth_error (advice s) i = Some (av_val a)) /\
  length (selector s) = length (advice s).
Proof.
  intros l r s Hok E. destruct (pres_prog lb l [] Hok _ _ _ (inv_new ph tid cid) (Forall_nil _) E) as ([W I1 I2 I3 I4 I5] & X & F).
  assert (HC : forall i, cl s i = mkCell tid cid i). { intros i. unfold cl. now rewrite (ext_tid _ _ X), (ext_cid _ _ X). }
  assert (HI : forall c, cell_in s c -> exists i, c = mkCell tid cid i /\ (i < length (advice s))%nat). { intros c (i & -> & Hi). exists i. rewrite HC. auto. }
  split; [exact I1|]. split; [exact I2|]. split; [|split; [|split]].
  - intros a b H. destruct (I3 a b H). auto.
  - intros c a H. apply HI. eauto.
  - intros t a H. destruct (I5 t a H) as [-> (i & H1 & H2)]. rewrite (ext_tid _ _ X), (ext_cid _ _ X). split; auto. exists i. rewrite <- HC. auto.
  - apply (wf_len _ W).
Qed.
(** C21, whole-program form: the assignment read off the advice column is a function on the cells, and a program's returned values live in the context *)
Theorem C21_returned_values_are_cells : forall (l : list (op p)) r s, Forall op_ok l ->
  run_prog lb l [] (new_ctx false ph tid cid) = Some (r, s) ->
  Forall (fun a => exists i, av_cell a = Some (mkCell tid cid i) /\ nth_error (advice s) i = Some (av_val a)) r.
Proof.
  intros l r s Hok E. destruct (pres_prog lb l [] Hok _ _ _ (inv_new ph tid cid) (Forall_nil _) E) as (_ & X & F).
  eapply Forall_impl; [|exact F]. intros a (i & H1 & H2). exists i. split; auto. rewrite H1. unfold cl. now rewrite (ext_tid _ _ X), (ext_cid _ _ X).
Qed.
End C20.
Print Assumptions C20_constraints_never_lost.
Print Assumptions C22_gates_inside_and_apart.
Print Assumptions C21_returned_values_are_cells.
Example C20_C22_ex : Forall op_ok (ex_prog five three) /\ exists r s, run_prog 3 (ex_prog five three) [] (new_ctx false 0 0 0) = Some (r, s) /\
  (5 < length (filter (fun b => b) (selector s)))%nat.
Proof.
  split; [repeat constructor|]. destruct (run_prog 3 (ex_prog five three) [] (new_ctx false 0 0 0)) as [[r s]|] eqn:E; [|vm_compute in E; discriminate].
  exists r, s. split; auto. vm_compute in E. injection E as <- <-. cbn. lia.
Qed.
(** The precondition on [select_by_indicator] is needed: with one indicator too few (the function does not check) the last gate it enables
    reaches beyond the cells it assigned, so the invariant C22 fails. *)
Theorem C22_select_length_refuted : exists (l : list (op 101)) r s, run_prog 3 l [] (new_ctx false 0 0 0) = Some (r, s) /\
  exists i, nth_error (selector s) i = Some true /\ (length (advice s) <= i + 3)%nat.
Proof.
  exists [OLoadWitness F1; OLoadWitness F0; OSelectByIndicator [Ref 0; Ref 1] [0%nat]].
  destruct (run_prog 3 [OLoadWitness F1; OLoadWitness F0; OSelectByIndicator [Ref 0; Ref 1] [0%nat]] [] (new_ctx (p:=101) false 0 0 0)) as [[r s]|] eqn:E;
    [|vm_compute in E; discriminate].
  exists r, s. split; auto. vm_compute in E. injection E as <- <-. exists 5%nat. cbn. split; auto.
Qed.

(** ** C21: the primitives of [Context] *)
Section C21.
Context (p : positive).
(** [assign_region]: appends one cell per input carrying its value; an assignment satisfies the result iff it satisfies what was there before,
    Existing inputs equal their source cell, Constant inputs equal their constant, and each requested gate holds on the new cells;
    exactly the requested gates are switched on; an offset outside the region is a panic. *)
Theorem C21_assign_region : forall (l : list (qcell p)) (offs : list Z) (s : st p) u s',
  wf s -> Forall (fun o => 0 <= o) offs -> assign_region l offs s = Some (u, s') ->
  (exists vs, advice s' = advice s ++ vs /\ length vs = length l) /\
  (forall i, nth_error (selector s') i = Some true <-> nth_error (selector s) i = Some true \/ In (Z.of_nat i - Z.of_nat (length (advice s))) offs) /\
  (forall o, In o offs -> o < Z.of_nat (length l)) /\
  forall lb sg, Sat lb sg s' <-> Sat lb sg s /\
     (forall i a, nth_error l i = Some (Existing a) -> sg (cl s (length (advice s) + i)) = avs sg a) /\
     (forall i c, nth_error l i = Some (Constant c) -> sg (cl s (length (advice s) + i)) = c) /\
     (forall k, In (Z.of_nat k) offs -> let x j := sg (cl s (length (advice s) + k + j)) in (x 0%nat + x 1%nat * x 2%nat)%F = x 3%nat).
Proof.
  intros l offs s u s' HW HO E. apply assign_region_spec in E as (W1 & X1 & A1 & _ & _ & _ & S1 & O1 & S2); auto.
  split; [exists (map qadv l); rewrite map_length; auto|]. split; [|split; [exact O1|]].
  - intros i. rewrite S1. unfold alen. apply or_iff_compat_l. split; [intros (o & Ho & Ei); replace (_ - _) with o by lia; auto|].
    intros Ho. exists (Z.of_nat i - Z.of_nat (length (advice s))). split; auto; lia.
  - intros lb sg. rewrite S2. apply and_iff_compat_l. unfold region_sem, rv, alen.
    assert (EQ : forall k j, (length (advice s) + (k + j) = length (advice s) + k + j)%nat) by (intros; lia). split.
    + intros [H1 H2]. split; [|split].
      * intros i a Hi. apply (H1 i _ Hi).
      * intros i c Hi. apply (H1 i _ Hi).
      * intros k Hk. specialize (H2 k Hk). cbv zeta. rewrite <- !EQ, Nat.add_0_r. exact H2.
    + intros (H1 & H2 & H3). split.
      * intros i q Hi. destruct q; cbn; auto.
      * intros k Hk. specialize (H3 k Hk). cbv zeta in H3. rewrite <- !EQ, Nat.add_0_r in H3. exact H3.
Qed.
Theorem C21_load_constant : forall (c : F p) (s : st p), wf s -> exists a s', load_constant c s = Some (a, s') /\
  av_val a = ATriv c /\ forall lb sg, Sat lb sg s' <-> Sat lb sg s /\ avs sg a = c.
Proof.
  intros c s HW. destruct (load_constant_total c s HW) as (a & s' & E). exists a, s'. split; auto.
  apply load_constant_spec in E as (_ & _ & _ & _ & _ & H1 & H2); auto.
Qed.
(** [load_zero]: pinned to 0; a later call returns the very same cell and changes nothing *)
Theorem C21_load_zero : forall (s : st p), wf s -> exists a s', load_zero s = Some (a, s') /\ av_val a = ATriv F0 /\
  (forall lb sg, Sat lb sg s' -> avs sg a = F0) /\ load_zero s' = Some (a, s').
Proof.
  intros s HW. destruct (load_zero_total s HW) as (a & s' & E). exists a, s'. split; auto.
  pose proof (load_zero_spec _ _ _ HW E) as (_ & _ & _ & H1 & H2 & _). split; auto. split; auto.
  unfold load_zero in *. destruct (zero_cell s) as [z|] eqn:EZ. { injection E as <- <-. now rewrite EZ. }
  apply bind_inv in E as (z & s1 & E1 & E). injection E as <- <-. cbn. reflexivity.
Qed.
Theorem C21_constrain_equal : forall (a b : AV p) (s : st p) u s', wf s -> constrain_equal a b s = Some (u, s') ->
  advice s' = advice s /\ forall lb sg, Sat lb sg s' <-> Sat lb sg s /\ avs sg a = avs sg b.
Proof. intros a b s u s' HW E. apply constrain_equal_spec in E as (_ & _ & H1 & H2); auto. Qed.
Theorem C21_assert_is_const : forall (a : AV p) (c : F p) (s : st p) u s', wf s -> assert_is_const a c s = Some (u, s') ->
  advice s' = advice s /\ forall lb sg, Sat lb sg s' <-> Sat lb sg s /\ avs sg a = c.
Proof. intros a c s u s' HW E. apply assert_is_const_spec in E as (_ & _ & H1 & H2); auto. Qed.
(** [get]: non-negative offsets count from the start, negative ones from the end; anything out of range panics *)
Theorem C21_get : forall (o : Z) (s : st p), wgo s = false ->
  ctx_get o s = if (- Z.of_nat (length (advice s)) <=? o) && (o <? Z.of_nat (length (advice s)))
                then (let i := Z.to_nat (if o <? 0 then Z.of_nat (length (advice s)) + o else o) in
                      option_map (fun v => (mkAV v (Some (cl s i)), s)) (nth_error (advice s) i))
                else None.
Proof.
  intros o s W. unfold ctx_get, alen, mk_av. rewrite W. set (n := Z.of_nat (length (advice s))).
  destruct (Z.leb_spec (-n) o), (Z.ltb_spec o n); cbn [andb]; destruct (Z.ltb_spec o 0); try lia.
  - destruct (Z.ltb_spec (n + o) 0); [lia|]. destruct (nth_error _ _); reflexivity.
  - destruct (Z.ltb_spec o 0); [lia|]. destruct (nth_error _ _); reflexivity.
  - destruct (Z.ltb_spec o 0); [lia|]. replace (nth_error (advice s) (Z.to_nat o)) with (@None (Assigned p)); auto. symmetry. apply nth_error_None. lia.
  - destruct (Z.ltb_spec (n + o) 0); [reflexivity|lia].
Qed.
End C21.
Print Assumptions C21_assign_region.
Print Assumptions C21_load_zero.
Print Assumptions C21_get.
Example C21_ex : wf (new_ctx (p:=101) false 0 0 0) /\ exists u s', assign_region [Witness five; Constant three; Constant F1; Witness (five + three)%F] [0] (new_ctx false 0 0 0) = Some (u, s').
Proof. split; [apply wf_new|]. eexists. eexists. vm_compute. reflexivity. Qed.
