(** Physical satisfaction of a layout and its equivalence with satisfaction of the virtual gates; break points; column count. *)
From Coq Require Import ZArith Lia List Bool.
From Verif Require Import Field Spec Context ContextProofs SatCheck Layout LayoutProofs.
Import ListNotations.

Section P.
Context {p : positive}.
Notation Fp := (F p).
Notation vctx := (vctx p).
Notation lay := (lay p).
Implicit Types c : vctx.

Lemma wr_locs (l : list plm) : map fst (flat_map (@P_wr p) l) = flat_map P_locs l.
Proof. induction l as [|e l IH]; cbn; auto. rewrite map_app, IH. f_equal. unfold P_wr, wr_of. rewrite map_map. cbn. f_equal. now rewrite map_id. Qed.
Fixpoint starts (maxr g row : nat) (cs : list vctx) : list (vctx * pc) :=
  match cs with
  | [] => []
  | c :: cs => (c, (g, row)) :: let e := walk_end maxr g row (esel c) in starts maxr (fst e) (snd e) cs
  end.
Lemma starts_map maxr cs : forall g row, map fst (starts maxr g row cs) = cs.
Proof. induction cs as [|c cs IH]; intros; cbn; f_equal; apply IH. Qed.
Lemma plc_starts maxr cs : forall g row, plc maxr g row cs = flat_map (fun e => plc_ctx maxr (fst (snd e)) (snd (snd e)) (fst e)) (starts maxr g row cs).
Proof. induction cs as [|c cs IH]; intros; cbn; f_equal; apply IH. Qed.
Lemma place_starts ncols maxr cs : forall s s', place_ctxs ncols maxr s cs = Some s' ->
  forall c x, In (c, x) (starts maxr (l_g s) (l_r s) cs) ->
    (forall k w, nth_error (walk maxr (fst x) (snd x) (esel c)) k = Some w -> snd w <> None -> overlap_ok (vc_sel c) k = true) /\
    length (vc_adv c) = length (esel c) /\ (vc_adv c <> [] -> vc_sel c = esel c).
Proof.
  induction cs as [|c0 cs IH]; intros s s' E c x Hx; cbn [place_ctxs starts] in *; [destruct Hx|].
  destruct (place_ctx ncols maxr s c0) as [s1|] eqn:E1; [|discriminate]. apply place_ctx_spec in E1. cbv zeta in *.
  destruct E1 as (_ & _ & _ & _ & A5 & _ & _ & _ & A9 & A10 & A11 & _).
  destruct Hx as [Hx|Hx]; [injection Hx as <- <-; auto|]. rewrite <- A5 in Hx. eapply IH; eauto.
Qed.

Section Pass.
Variables (ncols maxr : nat) (m0 : list (cell * pc)) (cs : list vctx) (L : lay).
Hypothesis Hm : 4 <= maxr.
Hypothesis HP : assign_with_constraints ncols maxr m0 cs = Some L.
Hypothesis Hin : forall c i, In c cs -> nth_error (vc_sel c) i = Some true -> i + 3 < length (vc_adv c).
Hypothesis H01 : forall c, In c cs -> ~ (nth_error (vc_sel c) 0 = Some true /\ nth_error (vc_sel c) 1 = Some true).

Let PL := plc maxr 0 0 cs.
Lemma pass_spec :
  l_wr L = flat_map P_wr PL /\ l_cp L = flat_map P_cp PL /\ l_en L = flat_map P_en PL /\ l_bp L = flat_map P_bp PL /\
  (l_g L, l_r L) = plc_end maxr 0 0 cs /\
  (forall d y, find_cell m0 d = Some y -> find_cell (l_map L) d = Some y) /\
  (forall x, In x PL -> find_cell (l_map L) (P_cell x) = Some (fst (P_w x))) /\
  (forall d y, find_cell (l_map L) d = Some y -> find_cell m0 d = Some y \/ exists x, In x PL /\ d = P_cell x /\ y = fst (P_w x)) /\
  (flat_map vc_adv cs <> [] -> l_g L < ncols).
Proof. pose proof (place_ctxs_spec _ _ _ _ _ HP) as H. cbv zeta in H. cbn in H. intuition. Qed.
Lemma in_PL x : In x PL <-> exists c s k v q w, In (c, s) (starts maxr 0 0 cs) /\ nth_error (items c) k = Some (v, q) /\
  nth_error (walk maxr (fst s) (snd s) (esel c)) k = Some w /\ x = mkPlm (vcell c k) v q w.
Proof.
  unfold PL. rewrite plc_starts, in_flat_map. split.
  - intros ([c s] & Hs & H). cbn in H. apply In_nth_error in H as (k & Hk). apply plc_items_nth in Hk as (v & q & w & H1 & H2 & ->). exists c, s, k, v, q, w. auto.
  - intros (c & s & k & v & q & w & H1 & H2 & H3 & ->). exists (c, s). split; auto. cbn. eapply nth_error_In. apply plc_items_nth. eauto 6.
Qed.
Lemma items_nth c s k : In (c, s) (starts maxr 0 0 cs) -> k < length (vc_adv c) ->
  exists v q w, nth_error (vc_adv c) k = Some v /\ nth_error (vc_sel c) k = Some q /\ nth_error (items c) k = Some (v, q) /\
    nth_error (esel c) k = Some q /\ nth_error (walk maxr (fst s) (snd s) (esel c)) k = Some w.
Proof.
  clear Hm Hin H01. intros Hs Hk. destruct (place_starts _ _ _ _ _ HP c s Hs) as (_ & H1 & H2).
  assert (E : vc_sel c = esel c). { apply H2. intros HE; rewrite HE in Hk; cbn in Hk; lia. }
  destruct (nth_error (items c) k) as [[v q]|] eqn:EI.
  2:{ apply nth_error_None in EI. unfold esel in H1. rewrite map_length in H1. lia. }
  assert (Eq : nth_error (esel c) k = Some q). { unfold esel. rewrite nth_error_map, EI. auto. }
  destruct (walk_nth maxr (esel c) (fst s) (snd s) k q Eq) as (x & Hx).
  exists v, q. eexists. split; [|split; [congruence|split; [auto|split; [auto|exact Hx]]]].
  unfold items in EI. clear -EI. revert k EI. generalize (vc_sel c). induction (vc_adv c) as [|a l IH]; intros [|b m] [|k] E; cbn in *; try discriminate; eauto. congruence.
Qed.
Lemma in_starts c : In c cs -> exists s, In (c, s) (starts maxr 0 0 cs).
Proof. intros H. rewrite <- (starts_map maxr cs 0 0) in H. apply in_map_iff in H as ([c' s] & <- & H). eauto. Qed.
Lemma starts_in c s : In (c, s) (starts maxr 0 0 cs) -> In c cs.
Proof. intros H. rewrite <- (starts_map maxr cs 0 0). apply in_map_iff. exists (c, s). auto. Qed.

(** every physical location is used by one placement only *)
Lemma PL_nodup : NoDup (flat_map P_locs PL).
Proof. unfold PL. rewrite plc_locs. apply walk_nodup. Qed.
Lemma nodup_flat {A B} (f : A -> list B) l : NoDup (flat_map f l) -> forall a b y, In a l -> In b l -> In y (f a) -> In y (f b) -> (exists z, In z (f a)) -> a = b \/ False.
Proof.
  induction l as [|h l IH]; intros HN a b y Ha Hb Hya Hyb He; [destruct Ha|]. cbn in HN.
  assert (HN' : NoDup (flat_map f l)) by (clear -HN; induction (f h) as [|z k IHk]; auto; inversion HN; auto).
  assert (HD : forall y, In y (f h) -> ~ In y (flat_map f l)).
  { clear -HN. revert HN. generalize (flat_map f l) as m. induction (f h) as [|x k IH]; intros m HN y Hy; [destruct Hy|]. cbn in HN. inversion HN as [|? ? Hn HN'']; subst.
    destruct Hy as [<-|Hy]; [intros Hm; apply Hn, in_or_app; auto|eapply IH; eauto]. }
  destruct Ha as [<-|Ha], Hb as [<-|Hb]; auto.
  - exfalso. apply (HD y Hya). apply in_flat_map; eauto.
  - exfalso. apply (HD y Hyb). apply in_flat_map; eauto.
  - eapply IH; eauto.
Qed.
Lemma PL_unique a b y : In a PL -> In b PL -> In y (P_locs a) -> In y (P_locs b) -> a = b.
Proof. intros Ha Hb H1 H2. destruct (nodup_flat P_locs PL PL_nodup a b y Ha Hb H1 H2) as [H|[]]; eauto. Qed.

(** the geometry of an enabled gate *)
Lemma gate_geometry c s i : In (c, s) (starts maxr 0 0 cs) -> nth_error (vc_sel c) i = Some true ->
  exists w0 w1 w2 w3, let W := walk maxr (fst s) (snd s) (esel c) in
    nth_error W i = Some w0 /\ nth_error W (i + 1) = Some w1 /\ nth_error W (i + 2) = Some w2 /\ nth_error W (i + 3) = Some w3 /\
    fst w1 = (fst (gloc w0), S (snd (gloc w0))) /\ fst w2 = (fst (gloc w0), S (S (snd (gloc w0)))) /\ fst w3 = (fst (gloc w0), S (S (S (snd (gloc w0))))) /\
    snd (gloc w0) + 4 <= maxr.
Proof.
  intros Hs Hi. pose proof (starts_in c s Hs) as Hc. pose proof (Hin c i Hc Hi) as Hl.
  destruct (items_nth c s i Hs ltac:(lia)) as (v0 & q0 & w0 & _ & S0 & _ & E0 & W0).
  destruct (items_nth c s (i + 1) Hs ltac:(lia)) as (v1 & q1 & w1 & _ & S1 & _ & E1 & W1).
  destruct (items_nth c s (i + 2) Hs ltac:(lia)) as (v2 & q2 & w2 & _ & S2 & _ & E2 & W2).
  destruct (items_nth c s (i + 3) Hs ltac:(lia)) as (v3 & q3 & w3 & _ & S3 & _ & E3 & W3).
  destruct (place_starts _ _ _ _ _ HP c s Hs) as (HO & _ & _). cbn [l_g l_r] in HO.
  rewrite Hi in S0. injection S0 as <-.
  pose proof (gate_fits maxr (esel c) (fst s) (snd s) i w0 Hm E0 W0) as HF.
  pose proof (walk_next maxr (esel c) (fst s) (snd s) i w0 w1 W0 ltac:(now rewrite <- Nat.add_1_r)) as N1.
  pose proof (walk_next maxr (esel c) (fst s) (snd s) (i + 1) w1 w2 W1 ltac:(now replace (S (i + 1)) with (i + 2) by lia)) as N2.
  pose proof (walk_next maxr (esel c) (fst s) (snd s) (i + 2) w2 w3 W2 ltac:(now replace (S (i + 2)) with (i + 3) by lia)) as N3.
  assert (B1 : snd w1 = None).
  { destruct q1.
    - destruct (snd w1) eqn:EB; auto. exfalso. specialize (HO (i + 1) w1 W1 ltac:(congruence)). destruct i as [|i].
      + apply (H01 c Hc). auto.
      + unfold overlap_ok in HO. replace (S i + 1 - 1) with (S i) in HO by lia. rewrite (nth_error_nth _ _ false Hi) in HO.
        destruct (Nat.leb_spec 4 (S i + 1 + 2)); [discriminate|lia].
    - eapply no_break; eauto. rewrite N1. cbn. lia. }
  assert (G1 : gloc w1 = fst w1) by (unfold gloc; now rewrite B1). rewrite G1, N1 in N2. cbn [fst snd] in N2.
  assert (B2 : snd w2 = None).
  { destruct q2.
    - destruct (snd w2) eqn:EB; auto. exfalso. specialize (HO (i + 2) w2 W2 ltac:(congruence)).
      unfold overlap_ok in HO. replace (i + 2 - 2) with i in HO by lia. rewrite (nth_error_nth _ _ false Hi), andb_false_r in HO.
      destruct (Nat.leb_spec 4 (i + 2 + 2)); [discriminate|lia].
    - eapply no_break; eauto. rewrite N2. cbn. lia. }
  assert (G2 : gloc w2 = fst w2) by (unfold gloc; now rewrite B2). rewrite G2, N2 in N3. cbn [fst snd] in N3.
  exists w0, w1, w2, w3. cbv zeta. repeat (split; [assumption|]). auto.
Qed.

Lemma cell_loc c s i w : In (c, s) (starts maxr 0 0 cs) -> nth_error (walk maxr (fst s) (snd s) (esel c)) i = Some w ->
  find_cell (l_map L) (vcell c i) = Some (fst w).
Proof.
  intros Hs Hw. assert (Hk : i < length (esel c)). { rewrite <- (walk_len maxr (esel c) (fst s) (snd s)). apply nth_error_Some. congruence. }
  destruct (place_starts _ _ _ _ _ HP c s Hs) as (_ & HL & _). rewrite <- HL in Hk.
  destruct (items_nth c s i Hs Hk) as (v & q & w' & _ & _ & EI & _ & W'). rewrite Hw in W'. injection W' as <-.
  apply (proj1 (proj2 (proj2 (proj2 (proj2 (proj2 (proj2 pass_spec))))))) with (x := mkPlm (vcell c i) v q w). apply in_PL. exists c, s, i, v, q, w. auto.
Qed.

(** soundness: any assignment of the physical columns that satisfies the circuit satisfies every virtual gate *)
Lemma layout_sound asg : psat asg L -> vgates (loc_val L asg) cs.
Proof.
  intros [HC HG] c i Hc Hi. destruct (in_starts c Hc) as (s & Hs).
  destruct (gate_geometry c s i Hs Hi) as (w0 & w1 & w2 & w3 & W0 & W1 & W2 & W3 & E1 & E2 & E3 & _).
  unfold loc_val. rewrite (cell_loc c s _ _ Hs W0), (cell_loc c s _ _ Hs W1), (cell_loc c s _ _ Hs W2), (cell_loc c s _ _ Hs W3), E1, E2, E3.
  destruct (items_nth c s i Hs ltac:(pose proof (Hin c i Hc Hi); lia)) as (v & q & w' & _ & S0 & EI & _ & W'). rewrite W0 in W'. injection W' as <-. rewrite Hi in S0. injection S0 as <-.
  assert (HX : In (mkPlm (vcell c i) v true w0) PL) by (apply in_PL; exists c, s, i, v, true, w0; auto).
  destruct pass_spec as (_ & PC & PE & _).
  assert (EG : In (gloc w0) (l_en L)). { rewrite PE. apply in_flat_map. eexists. split; [exact HX|]. cbn. auto. }
  assert (EV : asg (gloc w0) = asg (fst w0)).
  { unfold gloc. destruct (snd w0) as [y|] eqn:Ew; auto. apply HC. rewrite PC. apply in_flat_map. eexists. split; [exact HX|]. unfold P_cp, cp_of. cbn. rewrite Ew. now left. }
  rewrite <- EV. destruct (gloc w0) as [g r]. cbn [fst snd]. now apply HG.
Qed.

(** completeness: an assignment of the virtual cells extends to the physical columns *)
Definition asg_of (sg : cell -> Fp) (x : pc) : Fp :=
  match find (fun e => existsb (pc_eqb x) (P_locs e)) PL with Some e => sg (P_cell e) | None => F0 end.
Lemma asg_of_spec sg e x : In e PL -> In x (P_locs e) -> asg_of sg x = sg (P_cell e).
Proof.
  intros He Hx. unfold asg_of. destruct (find _ PL) as [e'|] eqn:E.
  - apply find_some in E as [He' Hx']. apply existsb_exists in Hx' as (y & Hy & Hxy). apply pc_eqb_eq in Hxy. subst y. f_equal. f_equal. eapply PL_unique; eauto.
  - exfalso. apply (find_none _ _ E) in He. assert (existsb (pc_eqb x) (P_locs e) = true); [|congruence]. apply existsb_exists. exists x. split; auto. now apply pc_eqb_eq.
Qed.
Lemma asg_of_loc sg c i : In c cs -> i < length (vc_adv c) -> exists x, find_cell (l_map L) (vcell c i) = Some x /\ asg_of sg x = sg (vcell c i).
Proof.
  intros Hc Hi. destruct (in_starts c Hc) as (s & Hs). destruct (items_nth c s i Hs Hi) as (v & q & w & _ & _ & EI & _ & W).
  exists (fst w). split; [eapply cell_loc; eauto|]. apply (asg_of_spec sg (mkPlm (vcell c i) v q w)); [apply in_PL; exists c, s, i, v, q, w; auto|now left].
Qed.
Lemma layout_complete sg : vgates sg cs -> psat (asg_of sg) L.
Proof.
  intros HG. destruct pass_spec as (_ & PC & PE & _). split.
  - intros x y H. rewrite PC in H. apply in_flat_map in H as (e & He & Hxy). unfold P_cp, cp_of in Hxy. destruct (snd (P_w e)) as [z|] eqn:Ez; [|destruct Hxy].
    destruct Hxy as [Hxy|[]]. injection Hxy as <- <-. rewrite !(asg_of_spec sg e); auto; unfold P_locs, wlocs; rewrite Ez; cbn; auto.
  - intros g r H. rewrite PE in H. apply in_flat_map in H as (e & He & Hx). unfold P_en, en_of in Hx. cbn in Hx. destruct (P_q e) eqn:Eq; [|destruct Hx]. destruct Hx as [Hx|[]].
    apply in_PL in He as (c & s & i & v & q & w & Hs & EI & EW & ->). cbn in Eq, Hx. subst q.
    assert (Hi : i < length (vc_adv c)). { unfold items in EI. assert (i < length (combine (vc_adv c) (vc_sel c))) by (apply nth_error_Some; congruence). rewrite combine_length in H. lia. }
    destruct (items_nth c s i Hs Hi) as (v' & q' & w5 & _ & S0 & EI' & _ & _). rewrite EI in EI'. injection EI' as <- <-.
    destruct (gate_geometry c s i Hs S0) as (w0 & w1 & w2 & w3 & W0 & W1 & W2 & W3 & E1 & E2 & E3 & _). cbv zeta in *.
    rewrite EW in W0. injection W0 as <-. rewrite Hx in E1, E2, E3. cbn [fst snd] in E1, E2, E3.
    assert (V : forall j w', nth_error (walk maxr (fst s) (snd s) (esel c)) j = Some w' -> forall x, In x (wlocs w') -> asg_of sg x = sg (vcell c j)).
    { intros j w' Hj x Hxl. assert (Hjl : j < length (vc_adv c)). { destruct (place_starts _ _ _ _ _ HP c s Hs) as (_ & HL & _). rewrite HL, <- (walk_len maxr (esel c) (fst s) (snd s)). apply nth_error_Some. congruence. }
      destruct (items_nth c s j Hs Hjl) as (v2 & q2 & w2' & _ & _ & EJ & _ & EWj). rewrite Hj in EWj. injection EWj as <-.
      apply (asg_of_spec sg (mkPlm (vcell c j) v2 q2 w')); auto. apply in_PL. exists c, s, j, v2, q2, w'. auto. }
    rewrite (V i w EW (g, r)). 2:{ rewrite <- Hx. unfold gloc, wlocs. destruct (snd w); cbn; auto. }
    rewrite (V _ w1 W1 (g, S r)), (V _ w2 W2 (g, S (S r))), (V _ w3 W3 (g, S (S (S r)))) by (rewrite <- ?E1, <- ?E2, <- ?E3; now left).
    apply HG; auto. eapply starts_in; eauto.
Qed.

(** placement facts: every virtual cell has a place inside the columns and rows, no two share one, and the value written there is the context's *)
Lemma layout_bounds e x : In e PL -> In x (P_locs e) -> fst x < ncols /\ snd x < maxr.
Proof.
  intros He Hx. assert (HI : In x (flat_map P_locs PL)) by (apply in_flat_map; eauto). unfold PL in HI. rewrite plc_locs in HI. split.
  - apply walk_cols in HI. destruct pass_spec as (_ & _ & _ & _ & PE & _ & _ & _ & PN). unfold plc_end in PE. rewrite <- PE in HI. cbn in HI.
    assert (flat_map vc_adv cs <> []); [|apply PN in H; lia]. apply in_PL in He as (c & s & i & v & q & w & Hs & EI & EW & ->).
    intros HE. assert (Hv : In v (flat_map vc_adv cs)); [|rewrite HE in Hv; destruct Hv]. apply in_flat_map. exists c. split; [eapply starts_in; eauto|].
    apply nth_error_In in EI. unfold items in EI. now apply in_combine_l in EI.
  - apply walk_rows in HI; lia.
Qed.
End Pass.
End P.
