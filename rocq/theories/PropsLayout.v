(** Property theorems C23-C26: laying out contexts in physical columns (model in Layout.v).
    [assign_with_constraints ncols maxr m0 cs = Some L]: the keygen pass over the contexts [cs] with [ncols] advice columns of [maxr] usable rows
    did not panic; [L] holds the virtual-to-physical map, the region writes, copies, enabled gates and break points.
    [psat asg L]: the physical assignment [asg] satisfies the copies and gates. [vgates sg cs]: the virtual assignment [sg] satisfies the gates of [cs]. *)
From Coq Require Import ZArith Znumtheory Lia List Bool.
From Verif Require Import Field Spec Context ContextProofs SatCheck Layout LayoutProofs LayoutProofs2 LayoutProofs3
  Utils Logic Gate Range Api Pres ApiPres PropsContext.
Import ListNotations.
Local Open Scope nat_scope.

Section C23.
Context {p : positive}.
Notation vctx := (vctx p).
(** C23: gates stay inside their context and cells 0 and 1 of a context do not both start a gate (implied by C22); arbitrary otherwise. *)
Theorem C23_layout_faithful : forall (ncols maxr : nat) (m0 : list (cell * pc)) (cs : list vctx) (L : lay p),
  4 <= maxr -> assign_with_constraints ncols maxr m0 cs = Some L ->
  (forall c i, In c cs -> nth_error (vc_sel c) i = Some true -> i + 3 < length (vc_adv c)) ->
  (forall c, In c cs -> ~ (nth_error (vc_sel c) 0 = Some true /\ nth_error (vc_sel c) 1 = Some true)) ->
  (forall asg, psat asg L -> vgates (loc_val L asg) cs) /\
  (forall sg, vgates sg cs -> exists asg, psat asg L /\ forall c i, In c cs -> i < length (vc_adv c) -> loc_val L asg (vcell c i) = sg (vcell c i)).
Proof.
  intros ncols maxr m0 cs L Hm HP Hin H01. split.
  - intros asg HA. eapply layout_sound; eauto.
  - intros sg HG. exists (asg_of maxr cs sg). split; [eapply layout_complete; eauto|].
    intros c i Hc Hi. destruct (asg_of_loc ncols maxr m0 cs L HP sg c i Hc Hi) as (x & E1 & E2). unfold loc_val. now rewrite E1, E2.
Qed.
(** every virtual cell has one physical cell, inside the available columns and rows, and different virtual cells have different ones;
    enabled gates also fit (selectors on any pattern) *)
Theorem C23_cells_placed_once : forall (ncols maxr : nat) (m0 : list (cell * pc)) (cs : list vctx) (L : lay p),
  4 <= maxr -> assign_with_constraints ncols maxr m0 cs = Some L ->
  (forall c i, In c cs -> i < length (vc_adv c) -> exists x, find_cell (l_map L) (vcell c i) = Some x /\ fst x < ncols /\ snd x < maxr) /\
  (forall c i c' i' x, In c cs -> In c' cs -> i < length (vc_adv c) -> i' < length (vc_adv c') ->
     find_cell (l_map L) (vcell c i) = Some x -> find_cell (l_map L) (vcell c' i') = Some x -> vcell c i = vcell c' i') /\
  (forall g r, In (g, r) (l_en L) -> g < ncols /\ r + 3 < maxr) /\
  (forall c i v, In c cs -> nth_error (vc_adv c) i = Some v -> exists x, find_cell (l_map L) (vcell c i) = Some x /\ In (x, v) (l_wr L)) /\
  NoDup (map fst (l_wr L)).
Proof.
  intros ncols maxr m0 cs L Hm HP.
  assert (K : forall c i, In c cs -> i < length (vc_adv c) -> exists v q w, nth_error (vc_adv c) i = Some v /\ In (mkPlm (vcell c i) v q w) (plc maxr 0 0 cs) /\ find_cell (l_map L) (vcell c i) = Some (fst w)).
  { intros c i Hc Hi. destruct (in_starts maxr cs c Hc) as (s & Hs). destruct (items_nth ncols maxr m0 cs L HP c s i Hs Hi) as (v & q & w & E0 & _ & E1 & _ & E2).
    exists v, q, w. split; auto. split; [apply in_PL; exists c, s, i, v, q, w; auto|eapply cell_loc; eauto]. }
  pose proof (pass_spec ncols maxr m0 cs L HP) as (PW & _ & PE & _).
  split; [|split; [|split; [|split]]].
  - intros c i Hc Hi. destruct (K c i Hc Hi) as (v & q & w & E0 & E1 & E2). exists (fst w). split; auto.
    eapply layout_bounds; [exact Hm|exact HP|exact E1|]. now left.
  - intros c i c' i' x Hc Hc' Hi Hi' E E'. destruct (K c i Hc Hi) as (v & q & w & _ & E1 & E2), (K c' i' Hc' Hi') as (v' & q' & w' & _ & E1' & E2').
    rewrite E in E2. injection E2 as ->. rewrite E' in E2'. injection E2' as E2'.
    pose proof (PL_unique maxr cs _ _ (fst w) E1 E1' ltac:(now left) ltac:(rewrite E2'; now left)) as H. exact (f_equal P_cell H).
  - intros g r H. rewrite PE in H. apply in_flat_map in H as (e & He & Hx). unfold P_en, en_of in Hx. cbn in Hx. destruct (P_q e) eqn:Eq; [|destruct Hx]. destruct Hx as [Hx|[]].
    pose proof He as He'. apply in_PL in He as (c & s & i & v & q & w & Hs & EI & EW & ->). cbn in Eq, Hx. subst q.
    assert (HB : In (gloc w) (P_locs (mkPlm (vcell c i) v true w))). { unfold P_locs, wlocs, gloc. cbn. destruct (snd w); cbn; auto. }
    destruct (layout_bounds ncols maxr m0 cs L Hm HP _ _ He' HB) as [H1 _]. rewrite Hx in H1. cbn in H1. split; auto.
    assert (Hq : nth_error (esel c) i = Some true). { unfold esel. now rewrite nth_error_map, EI. }
    pose proof (gate_fits maxr (esel c) (fst s) (snd s) i w Hm Hq EW) as HF. rewrite Hx in HF. cbn in HF. lia.
  - intros c i v Hc Hv. destruct (K c i Hc ltac:(apply nth_error_Some; congruence)) as (v' & q & w & E0 & E1 & E2). rewrite Hv in E0. injection E0 as <-.
    exists (fst w). split; auto. rewrite PW. apply in_flat_map. eexists. split; [exact E1|]. now left.
  - rewrite PW. replace (map fst (flat_map P_wr (plc maxr 0 0 cs))) with (flat_map P_locs (plc maxr 0 0 cs)); [apply PL_nodup|]. symmetry. apply wr_locs.
Qed.
(** A program over the public API, run in keygen mode, satisfies the hypotheses of [C23_layout_faithful]. So for any finite family of contexts
    built by API programs: a physical witness of the laid-out gates is a witness of all their virtual gates and conversely. *)
Definition api_context (lb : nat) (s : st p) : Prop :=
  exists ph tid cid l r, Forall op_ok l /\ run_prog lb l [] (new_ctx false ph tid cid) = Some (r, s).
Theorem C23_layout_faithful_api : forall (lb ncols maxr : nat) (m0 : list (cell * pc)) (ss : list (st p)) (L : lay p),
  4 <= maxr -> Forall (api_context lb) ss -> assign_with_constraints ncols maxr m0 (map vctx_of ss) = Some L ->
  (forall asg, psat asg L -> forall s i, In s ss -> nth_error (selector s) i = Some true ->
     let x k := loc_val L asg (mkCell (s_tid s) (s_cid s) (i + k)) in (x 0%nat + x 1%nat * x 2%nat = x 3%nat)%F) /\
  (forall sg, (forall s i, In s ss -> nth_error (selector s) i = Some true ->
     let x k := sg (mkCell (s_tid s) (s_cid s) (i + k)) in (x 0%nat + x 1%nat * x 2%nat = x 3%nat)%F) ->
   exists asg, psat asg L /\ forall s i, In s ss -> i < length (advice s) -> loc_val L asg (mkCell (s_tid s) (s_cid s) i) = sg (mkCell (s_tid s) (s_cid s) i)).
Proof.
  intros lb ncols maxr m0 ss L Hm HA HP. rewrite Forall_forall in HA.
  assert (HG : forall c i, In c (map vctx_of ss) -> nth_error (vc_sel c) i = Some true -> i + 3 < length (vc_adv c)).
  { intros c i Hc Hi. apply in_map_iff in Hc as (s & <- & Hs). destruct (HA s Hs) as (ph & tid & cid & l & r & Hok & E).
    exact (proj1 (C22_gates_inside_and_apart _ _ _ _ _ _ _ _ Hok E) i Hi). }
  assert (H01 : forall c, In c (map vctx_of ss) -> ~ (nth_error (vc_sel c) 0 = Some true /\ nth_error (vc_sel c) 1 = Some true)).
  { intros c Hc [E0 E1]. apply in_map_iff in Hc as (s & <- & Hs). destruct (HA s Hs) as (ph & tid & cid & l & r & Hok & E).
    pose proof (proj1 (proj2 (C22_gates_inside_and_apart _ _ _ _ _ _ _ _ Hok E)) 0 1 E0 E1 ltac:(lia)). lia. }
  destruct (C23_layout_faithful ncols maxr m0 (map vctx_of ss) L Hm HP HG H01) as [HS HC]. split.
  - intros asg Hps s i Hs Hi. cbv beta zeta. pose proof (HS asg Hps (vctx_of s) i (in_map vctx_of ss s Hs) Hi) as H. unfold vcell in H. cbn in H. replace (i + 0) with i by lia. exact H.
  - intros sg Hsg. destruct (HC sg) as (asg & A1 & A2).
    { intros c i Hc Hi. apply in_map_iff in Hc as (s & <- & Hs). specialize (Hsg s i Hs Hi). cbv beta zeta in Hsg. unfold vcell. cbn. replace (i + 0) with i in Hsg by lia. exact Hsg. }
    exists asg. split; auto. intros s i Hs Hi. apply (A2 (vctx_of s) i (in_map vctx_of ss s Hs) Hi).
Qed.
(** running the pass again on top of the map of the first run (the real prover after MockProver / keygen_vk then keygen_pk) changes nothing *)
Theorem C23_second_run_identical : forall (ncols maxr : nat) (m0 : list (cell * pc)) (cs : list vctx) (L : lay p),
  assign_with_constraints ncols maxr m0 cs = Some L -> assign_with_constraints ncols maxr (l_map L) cs = Some L.
Proof. exact pass_again. Qed.
(** the shape of the layout does not depend on the advice values *)
Theorem C23_layout_independent_of_values : forall (ncols maxr : nat) (m0 : list (cell * pc)) (cs cs' : list vctx) (L : lay p),
  Forall2 (fun c c' => vc_tid c = vc_tid c' /\ vc_cid c = vc_cid c' /\ vc_sel c = vc_sel c' /\ length (vc_adv c) = length (vc_adv c')) cs cs' ->
  assign_with_constraints ncols maxr m0 cs = Some L ->
  exists L', assign_with_constraints ncols maxr m0 cs' = Some L' /\
    l_map L' = l_map L /\ l_cp L' = l_cp L /\ l_en L' = l_en L /\ l_bp L' = l_bp L /\ map fst (l_wr L') = map fst (l_wr L).
Proof.
  intros ncols maxr m0 cs cs' L HF E. destruct (pass_sim ncols maxr m0 cs cs' L HF E) as (L' & E' & A1 & A2 & A3 & A4 & A5 & A6 & A7).
  exists L'. auto 10.
Qed.
End C23.
Print Assumptions C23_layout_faithful.
Print Assumptions C23_cells_placed_once.
Print Assumptions C23_layout_faithful_api.
Print Assumptions C23_second_run_identical.
Print Assumptions C23_layout_independent_of_values.
(** two contexts of API programs, laid out in 3 columns of 40 rows: several breaks, all hypotheses met *)
Definition lay_ex_cs : list (vctx 101) :=
  flat_map (fun cid => match run_prog 3 (ex_prog five three) [] (new_ctx false 0 0 cid) with Some (_, s) => [vctx_of s] | None => [] end) [0; 1].
Example C23_ex : exists L, assign_with_constraints 6 40 [] lay_ex_cs = Some L /\ length lay_ex_cs = 2 /\ 2 < length (l_bp L) /\ 40 < length (l_en L) /\ 2 < length (l_cp L).
Proof.
  destruct (assign_with_constraints 6 40 [] lay_ex_cs) as [L|] eqn:E; [|vm_compute in E; discriminate].
  exists L. split; auto. vm_compute in E. injection E as <-. cbn [l_bp l_en l_cp length]. split; [vm_compute; reflexivity|lia].
Qed.

(** ** C24 *)
Section C24.
Context {p : positive}.
Notation vctx := (vctx p).
(** Keygen laid out [cs]. At proving time the contexts [cw] hold other values (and no selectors) but the same number of cells each. Then
    replaying the recorded break points does not panic and writes exactly the cells keygen wrote: cell [i] of the [k]-th context receives the
    prover's value at the place keygen gave it, and both ends of every break copy receive the same value. *)
Theorem C24_break_points_replay : forall (ncols maxr : nat) (m0 : list (cell * pc)) (cs cw : list vctx) (L : lay p),
  ncols <> 0 -> assign_with_constraints ncols maxr m0 cs = Some L -> Forall2 (fun c w => length (vc_adv c) = length (vc_adv w)) cs cw ->
  exists wr, assign_witnesses_raw ncols cw (l_bp L) = Some wr /\ map fst wr = map fst (l_wr L) /\ NoDup (map fst wr) /\
    (forall k i c w v, nth_error cs k = Some c -> nth_error cw k = Some w -> nth_error (vc_adv w) i = Some v ->
       exists x, find_cell (l_map L) (vcell c i) = Some x /\ In (x, v) wr) /\
    (forall x y, In (y, x) (l_cp L) -> exists v, In (x, v) wr /\ In (y, v) wr).
Proof.
  intros ncols maxr m0 cs cw L Hn HP HF.
  set (mix := fun cw : vctx * vctx => mkVctx (vc_tid (fst cw)) (vc_cid (fst cw)) (vc_adv (snd cw)) (vc_sel (fst cw)) : vctx).
  set (cs2 := map mix (combine cs cw)).
  assert (HS : Forall2 LayoutProofs3.same_shape cs cs2).
  { unfold cs2. clear HP. induction HF as [|c w cs cw H _ IH]; cbn; constructor; auto. unfold LayoutProofs3.same_shape. cbn. auto. }
  assert (HV : flat_map vc_adv cs2 = flat_map vc_adv cw). { unfold cs2. clear -HF. induction HF as [|c w cs cw H _ IH]; cbn; auto. now rewrite IH. }
  destruct (pass_sim ncols maxr m0 cs cs2 L HS HP) as (L2 & E2 & B1 & B2 & B3 & B4 & B5 & B6 & B7).
  pose proof (replay_same ncols maxr m0 cs2 L2 E2 Hn) as HR. exists (l_wr L2).
  assert (HN : NoDup (map fst (l_wr L2))).
  { pose proof (pass_spec ncols maxr m0 cs2 L2 E2) as (PW & _). rewrite PW. replace (map fst (flat_map P_wr (plc maxr 0 0 cs2))) with (flat_map P_locs (plc maxr 0 0 cs2)); [apply PL_nodup|]. symmetry. apply wr_locs. }
  split; [|split; [auto|split; [auto|split]]].
  - rewrite <- HR, B4. unfold assign_witnesses_raw. destruct ncols; [lia|]. now rewrite HV.
  - intros k i c w v Hc Hw Hv.
    assert (H2 : nth_error cs2 k = Some (mix (c, w))). { unfold cs2. rewrite nth_error_map. assert (nth_error (combine cs cw) k = Some (c, w)) as ->; auto.
      clear -Hc Hw. revert cs cw Hc Hw. induction k as [|k IH]; intros [|a cs] [|b cw] Hc Hw; cbn in *; try discriminate; [congruence|auto]. }
    apply nth_error_In in H2. destruct (in_starts maxr cs2 _ H2) as (s & Hs).
    destruct (items_nth ncols maxr m0 cs2 L2 E2 _ s i Hs) as (v' & q & ww & E0 & _ & E1 & _ & E3). { cbn. apply nth_error_Some. congruence. }
    cbn in E0. rewrite Hv in E0. injection E0 as <-. exists (fst ww). split.
    + rewrite B1. change (vcell c i) with (vcell (mix (c, w)) i). eapply cell_loc; eauto.
    + rewrite (proj1 (pass_spec ncols maxr m0 cs2 L2 E2)). apply in_flat_map. exists (mkPlm (vcell (mix (c, w)) i) v q ww). split; [|now left].
      apply in_PL. exists (mix (c, w)), s, i, v, q, ww. auto.
  - intros x y H. rewrite B2 in H. destruct (pass_spec ncols maxr m0 cs2 L2 E2) as (PW & PC & _). rewrite PC in H. apply in_flat_map in H as (e & He & Hx).
    unfold P_cp, cp_of in Hx. destruct (snd (P_w e)) as [z|] eqn:Ez; [|destruct Hx]. destruct Hx as [Hx|[]]. injection Hx as <- <-.
    exists (P_val e). rewrite PW. split; apply in_flat_map; exists e; (split; [auto|]); unfold P_wr, wr_of, wlocs; cbn; rewrite Ez; cbn; auto.
Qed.
End C24.
Print Assumptions C24_break_points_replay.
Example C24_ex : exists L wr, assign_with_constraints 6 40 [] lay_ex_cs = Some L /\ assign_witnesses_raw 6 lay_ex_cs (l_bp L) = Some wr /\ 100 < length wr /\ length wr = length (flat_map vc_adv lay_ex_cs) + length (l_bp L).
Proof.
  destruct (assign_with_constraints 6 40 [] lay_ex_cs) as [L|] eqn:E; [|vm_compute in E; discriminate].
  destruct (assign_witnesses_raw 6 lay_ex_cs (l_bp L)) as [wr|] eqn:E2; [|vm_compute in E; injection E as <-; vm_compute in E2; discriminate].
  exists L, wr. split; auto. split; auto. vm_compute in E. injection E as <-. vm_compute in E2. injection E2 as <-. split; [cbn; lia|vm_compute; reflexivity].
Qed.

(** ** C25 *)
(** For arbitrary selector patterns: if the pass returns and cell [k >= 2] of a context was duplicated by a column break, no gate starts at [k-1] or [k-2]. *)
Theorem C25_overlap_check_partial : forall (p : positive) (ncols maxr : nat) (m0 : list (cell * pc)) (cs : list (vctx p)) (L : lay p) (c : vctx p) (k : nat) (x y : pc),
  4 <= maxr -> assign_with_constraints ncols maxr m0 cs = Some L -> In c cs -> k < length (vc_adv c) ->
  find_cell (l_map L) (vcell c k) = Some x -> In (y, x) (l_cp L) -> 2 <= k ->
  nth_error (vc_sel c) (k - 1) = Some false /\ nth_error (vc_sel c) (k - 2) = Some false.
Proof.
  intros p ncols maxr m0 cs L c k x y Hm HP Hc Hk Hx Hxy H2.
  destruct (in_starts maxr cs c Hc) as (s & Hs). destruct (items_nth ncols maxr m0 cs L HP c s k Hs Hk) as (v & q & w & E0 & _ & E1 & _ & E2).
  assert (fst w = x). { pose proof (cell_loc ncols maxr m0 cs L HP c s k w Hs E2). congruence. } subst x.
  destruct (pass_spec ncols maxr m0 cs L HP) as (_ & PC & _). rewrite PC in Hxy. apply in_flat_map in Hxy as (e & He & Hxy).
  unfold P_cp, cp_of in Hxy. destruct (snd (P_w e)) as [z|] eqn:Ez; [|destruct Hxy]. destruct Hxy as [Hxy|[]]. injection Hxy as _ Hxy.
  assert (Hin : In (mkPlm (vcell c k) v q w) (plc maxr 0 0 cs)) by (apply in_PL; exists c, s, k, v, q, w; auto).
  assert (e = mkPlm (vcell c k) v q w). { eapply (PL_unique maxr cs); [exact He|exact Hin| |now left]. left. symmetry. auto. } subst e. cbn in Ez.
  destruct (place_starts ncols maxr cs _ _ HP c s Hs) as (HO & HL & HE). cbn [l_g l_r] in HO. specialize (HO k w E2 ltac:(congruence)).
  unfold overlap_ok in HO. destruct (Nat.leb_spec 4 (k + 2)); [|lia]. apply andb_prop in HO as [O1 O2]. apply negb_true_iff in O1, O2.
  assert (HL2 : length (vc_sel c) = length (vc_adv c)). { rewrite HE, HL; auto. intros E. rewrite E in Hk. cbn in Hk. lia. }
  split; match goal with |- nth_error ?l ?j = _ => destruct (nth_error l j) as [b|] eqn:En; [rewrite (nth_error_nth _ _ false En) in *; congruence|apply nth_error_None in En; lia] end.
Qed.
(** ... and the gates then hold on the physical cells, except for one pattern: *)
Theorem C25_overlap_gap_refuted : exists (ncols maxr : nat) (cs : list (vctx 101)) (L : lay 101) (asg : pc -> F 101),
  4 <= maxr /\ assign_with_constraints ncols maxr [] cs = Some L /\
  (forall c i, In c cs -> nth_error (vc_sel c) i = Some true -> i + 3 < length (vc_adv c)) /\
  psat asg L /\ ~ vgates (loc_val L asg) cs.
Proof.
  set (z := ATriv (F0 : F 101)).
  exists 3, 8, [mkVctx 0 0 [z; z; z; z] [false; false; false; false]; mkVctx 0 1 [z; z; z; z; z] [true; true; false; false; false]].
  destruct (assign_with_constraints 3 8 [] [mkVctx 0 0 [z; z; z; z] [false; false; false; false]; mkVctx 0 1 [z; z; z; z; z] [true; true; false; false; false]]) as [L|] eqn:E; [|vm_compute in E; discriminate].
  exists L, (fun x => if pc_eqb x (1, 2) then F1 else F0). split; [lia|]. split; auto. vm_compute in E. injection E as <-. split; [|split].
  - intros c i [<-|[<-|[]]] Hi; do 5 (destruct i as [|i]; cbn in Hi; try discriminate; try (cbn; lia)); destruct i; discriminate.
  - split; cbn.
    + intros x y [H|[]]. injection H as <- <-. reflexivity.
    + intros g r [H|[H|[]]]; injection H as <- <-; cbn; apply F_eq; reflexivity.
  - intros H. specialize (H (mkVctx 0 1 [z; z; z; z; z] [true; true; false; false; false]) 0 ltac:(right; now left) eq_refl). apply (f_equal val) in H. vm_compute in H. discriminate.
Qed.
Print Assumptions C25_overlap_check_partial.
Print Assumptions C25_overlap_gap_refuted.
(** the check fires: two gates at distance 1 just before the end of a column make the pass panic (deeper in a context) *)
Example C25_ex : let z := ATriv (F0 : F 101) in
  assign_with_constraints 3 8 [] [mkVctx 0 0 [z; z; z; z; z; z; z; z; z] [false; false; false; false; true; true; false; false; false]] = None /\
  assign_with_constraints 3 8 [] [mkVctx 0 0 [z; z; z; z; z; z; z; z; z] [false; false; false; false; true; false; false; false; false]] <> None.
Proof. vm_compute. split; [reflexivity|discriminate]. Qed.

(** ** C26 *)
Section C26.
Context {p : positive}.
(** The estimate [ceil(cells / rows)] is not always enough: *)
Theorem C26_calculated_columns_refuted : exists (lb maxr : nat) (s : st 101),
  api_context lb s /\ 4 <= maxr /\ assign_with_constraints (calc_num_advice maxr (length (advice s))) maxr [] [vctx_of s] = None.
Proof.
  exists 3, 8. set (l := map (fun i => OLoadWitness (of_Z 101 i)) [0%Z; 1%Z; 2%Z; 3%Z; 4%Z; 5%Z; 6%Z; 7%Z]).
  destruct (run_prog 3 l [] (new_ctx false 0 0 0)) as [[r s]|] eqn:E; [|vm_compute in E; discriminate].
  exists s. split; [|split; [lia|]].
  - exists 0, 0, 0, l, r. split; auto. repeat constructor.
  - vm_compute in E. injection E as <- <-. vm_compute. reflexivity.
Qed.
(** What does suffice, for all contexts built by API programs with distinct tags: [cells <= columns * (rows - 3)]. *)
Theorem C26_enough_columns_partial : forall (lb ncols maxr : nat) (ss : list (st p)),
  4 <= maxr -> Forall (api_context lb) ss -> NoDup (map (fun s => (s_tid s, s_cid s)) ss) ->
  length (flat_map advice ss) <= ncols * (maxr - 3) ->
  exists L, assign_with_constraints ncols maxr [] (map vctx_of ss) = Some L.
Proof.
  intros lb ncols maxr ss Hm HA HD HT. rewrite Forall_forall in HA. unfold assign_with_constraints.
  assert (EV : flat_map vc_adv (map vctx_of ss) = flat_map advice ss) by (clear; induction ss as [|s ss IH]; cbn; auto; now rewrite IH).
  apply place_ctxs_total with (n := 0); cbn [l_g l_r l_map]; auto; try lia.
  - rewrite map_map. exact HD.
  - intros c Hc. apply in_map_iff in Hc as (s & <- & Hs). destruct (HA s Hs) as (ph & tid & cid & l & r & Hok & E).
    destruct (C22_gates_inside_and_apart _ _ _ _ _ _ _ _ Hok E) as (I1 & I2 & _ & _ & _ & I6). cbn. split; auto. split; [exact I2|]. intros k Hk. rewrite I6. auto.
  - rewrite EV. lia.
Qed.
End C26.
Print Assumptions C26_calculated_columns_refuted.
Print Assumptions C26_enough_columns_partial.
Example C26_ex : exists s : st 101, api_context 3 s /\ 50 < length (advice s) /\ length (flat_map advice [s]) <= 6 * (40 - 3).
Proof.
  destruct (run_prog 3 (ex_prog five three) [] (new_ctx false 0 0 0)) as [[r s]|] eqn:E; [|vm_compute in E; discriminate].
  exists s. split; [exists 0, 0, 0, (ex_prog five three), r; split; auto; repeat constructor|]. vm_compute in E. injection E as <- <-. cbn [advice length flat_map app]. lia.
Qed.
