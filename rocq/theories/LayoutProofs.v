(** Correctness of the layout pass (model in Layout.v). *)
From Coq Require Import ZArith Lia List Bool.
From Verif Require Import Field Spec Context ContextProofs SatCheck Layout.
Import ListNotations.

(** ** Where each cell goes: a walk over the selector bits *)
Fixpoint walk (maxr g row : nat) (qs : list bool) : list (pc * option pc) :=
  match qs with
  | [] => []
  | q :: qs => if brk maxr row q then ((g, row), Some (S g, 0)) :: walk maxr (S g) 1 qs else ((g, row), None) :: walk maxr g (S row) qs
  end.
Fixpoint walk_end (maxr g row : nat) (qs : list bool) : pc :=
  match qs with
  | [] => (g, row)
  | q :: qs => if brk maxr row q then walk_end maxr (S g) 1 qs else walk_end maxr g (S row) qs
  end.
(** where the gate of a cell sits: in the copy at the top of the next column if there was a break *)
Definition gloc (w : pc * option pc) : pc := match snd w with Some y => y | None => fst w end.
Definition wlocs (w : pc * option pc) : list pc := fst w :: match snd w with Some y => [y] | None => [] end.

Lemma walk_app maxr q1 : forall g row q2, walk maxr g row (q1 ++ q2) =
  walk maxr g row q1 ++ let e := walk_end maxr g row q1 in walk maxr (fst e) (snd e) q2.
Proof. induction q1 as [|q q1 IH]; intros; cbn [walk walk_end app]; auto. destruct (brk maxr row q); cbn [app]; now rewrite IH. Qed.
Lemma walk_end_app maxr q1 : forall g row q2, walk_end maxr g row (q1 ++ q2) =
  let e := walk_end maxr g row q1 in walk_end maxr (fst e) (snd e) q2.
Proof. induction q1 as [|q q1 IH]; intros; cbn [walk walk_end app]; auto. destruct (brk maxr row q); cbn [app]; now rewrite IH. Qed.
Lemma walk_len maxr qs : forall g row, length (walk maxr g row qs) = length qs.
Proof. induction qs as [|q qs IH]; intros; cbn [walk]; auto. destruct (brk _ _ _); cbn; now rewrite IH. Qed.
Lemma walk_nth maxr qs : forall g row i q, nth_error qs i = Some q -> exists x, nth_error (walk maxr g row qs) i =
  Some (x, if brk maxr (snd x) q then Some (S (fst x), 0) else None).
Proof.
  induction qs as [|b qs IH]; intros g row i q H; [destruct i; discriminate|]. destruct i as [|i]; cbn [nth_error walk] in *.
  - injection H as ->. exists (g, row). cbn. destruct (brk _ _ _); auto.
  - destruct (brk maxr row b); cbn [nth_error]; apply IH; auto.
Qed.
Lemma walk_first maxr qs g row w : nth_error (walk maxr g row qs) 0 = Some w -> fst w = (g, row).
Proof. destruct qs as [|q qs]; cbn [walk]; [discriminate|]. destruct (brk _ _ _); intros [= <-]; auto. Qed.
Lemma walk_next maxr qs : forall g row i w w', nth_error (walk maxr g row qs) i = Some w -> nth_error (walk maxr g row qs) (S i) = Some w' ->
  fst w' = (fst (gloc w), S (snd (gloc w))).
Proof.
  induction qs as [|q qs IH]; intros g row i w w' H H'; [destruct i; discriminate|]. cbn [walk] in *. destruct i as [|i].
  - destruct (brk maxr row q); cbn [nth_error] in *; injection H as <-; now apply walk_first in H'.
  - destruct (brk maxr row q); cbn [nth_error] in *; eapply IH; eauto.
Qed.
Definition lexlt (a b : pc) : Prop := fst a < fst b \/ (fst a = fst b /\ snd a < snd b).
Lemma lexlt_trans a b c : lexlt a b -> lexlt b c -> lexlt a c.
Proof. unfold lexlt. lia. Qed.
Lemma lexlt_irrefl a : ~ lexlt a a.
Proof. unfold lexlt. lia. Qed.
(** all physical cells used are at or after the starting position, rows stay below [maxr], and all are distinct *)
Lemma walk_bound maxr qs : forall g row x, In x (flat_map wlocs (walk maxr g row qs)) -> x = (g, row) \/ lexlt (g, row) x.
Proof.
  induction qs as [|q qs IH]; intros g row x H; cbn [walk] in H; [destruct H|]. destruct (brk maxr row q); cbn [flat_map wlocs fst snd app] in H.
  - destruct H as [<-|[<-|H]]; auto; right; [unfold lexlt; cbn; lia|]. apply IH in H as [->|H]; unfold lexlt in *; cbn in *; lia.
  - destruct H as [<-|H]; auto; right. apply IH in H as [->|H]; unfold lexlt in *; cbn in *; lia.
Qed.
Lemma walk_nodup maxr qs : forall g row, NoDup (flat_map wlocs (walk maxr g row qs)).
Proof.
  induction qs as [|q qs IH]; intros g row; cbn [walk]; [constructor|]. destruct (brk maxr row q); cbn [flat_map wlocs fst snd app].
  - constructor; [|constructor; [|apply IH]].
    + intros [H|H]; [injection H; lia|]. apply walk_bound in H as [H|H]; [injection H; lia|unfold lexlt in H; cbn in H; lia].
    + intros H. apply walk_bound in H as [H|H]; [injection H; lia|unfold lexlt in H; cbn in H; lia].
  - constructor; [|apply IH]. intros H. apply walk_bound in H as [H|H]; [injection H; lia|unfold lexlt in H; cbn in H; lia].
Qed.
Lemma walk_rows maxr qs : forall g row x, 2 <= maxr -> row < maxr -> In x (flat_map wlocs (walk maxr g row qs)) -> snd x < maxr.
Proof.
  induction qs as [|q qs IH]; intros g row x H2 Hr H; cbn [walk] in H; [destruct H|]. destruct (brk maxr row q) eqn:E; cbn [flat_map wlocs fst snd app] in H.
  - destruct H as [<-|[<-|H]]; cbn; try lia. eapply IH; [| |exact H]; lia.
  - destruct H as [<-|H]; cbn; try lia. eapply IH; [| |exact H]; auto. unfold brk in E. apply orb_false_iff in E as [_ E]. apply Nat.leb_gt in E. lia.
Qed.
Lemma walk_end_row maxr qs : forall g row, 2 <= maxr -> row < maxr -> snd (walk_end maxr g row qs) < maxr.
Proof.
  induction qs as [|q qs IH]; intros g row H2 Hr; cbn [walk_end]; auto. destruct (brk maxr row q) eqn:E; apply IH; auto; try lia.
  unfold brk in E. apply orb_false_iff in E as [_ E]. apply Nat.leb_gt in E. lia.
Qed.
Lemma walk_cols maxr qs : forall g row x, In x (flat_map wlocs (walk maxr g row qs)) -> g <= fst x <= fst (walk_end maxr g row qs).
Proof.
  assert (HM : forall qs g row, g <= fst (walk_end maxr g row qs)).
  { clear. intros qs. induction qs as [|q qs IH]; intros; cbn [walk_end]; auto. destruct (brk maxr row q); [specialize (IH (S g) 1)|specialize (IH g (S row))]; lia. }
  induction qs as [|q qs IH]; intros g row x H; cbn [walk] in H; [destruct H|]. cbn [walk_end]. destruct (brk maxr row q); cbn [flat_map wlocs fst snd app] in H.
  - pose proof (HM qs (S g) 1). destruct H as [<-|[<-|H]]; cbn; try lia. apply IH in H. lia.
  - pose proof (HM qs g (S row)). destruct H as [<-|H]; cbn; try lia. now apply IH in H.
Qed.
(** an enabled gate fits in its column *)
Lemma gate_fits maxr qs g row i w : 4 <= maxr -> nth_error qs i = Some true -> nth_error (walk maxr g row qs) i = Some w -> snd (gloc w) + 4 <= maxr.
Proof.
  intros H4 Hq Hw. destruct (walk_nth maxr qs g row i true Hq) as (x & Hx). rewrite Hw in Hx. injection Hx as ->. unfold gloc. cbn.
  destruct (brk maxr (snd x) true) eqn:E; cbn; [lia|]. unfold brk in E. cbn in E. apply orb_false_iff in E as [E _]. apply Nat.ltb_ge in E. lia.
Qed.
(** no break right after a row with three rows of room, at a cell without gate *)
Lemma no_break maxr qs g row i w : nth_error qs i = Some false -> nth_error (walk maxr g row qs) i = Some w -> snd (fst w) + 1 < maxr -> snd w = None.
Proof.
  intros Hq Hw Hr. destruct (walk_nth maxr qs g row i false Hq) as (x & Hx). rewrite Hw in Hx. injection Hx as ->. cbn in *.
  unfold brk. cbn. destruct (Nat.leb_spec maxr (snd x + 1)); [lia|auto].
Qed.

Section P.
Context {p : positive}.
Notation Fp := (F p).
Notation vctx := (vctx p).
Notation lay := (lay p).

Lemma find_cell_app m m' c : find_cell (m ++ m') c = match find_cell m c with Some x => Some x | None => find_cell m' c end.
Proof. unfold find_cell. induction m as [|[a x] m IH]; cbn; auto. destruct (cell_eqb a c); auto. Qed.
Lemma find_cell_cons a x m c : find_cell ((a, x) :: m) c = if cell_eqb a c then Some x else find_cell m c.
Proof. unfold find_cell. cbn. destruct (cell_eqb a c); auto. Qed.
Lemma insert_spec m c x m' : insert_cell m c x = Some m' ->
  find_cell m' c = Some x /\ (forall d y, find_cell m d = Some y -> find_cell m' d = Some y) /\
  (forall d y, find_cell m' d = Some y -> find_cell m d = Some y \/ (d = c /\ y = x)).
Proof.
  unfold insert_cell. destruct (find_cell m c) as [old|] eqn:E.
  - destruct (pc_eqb old x) eqn:Eo; [|discriminate]. intros [= <-]. apply pc_eqb_eq in Eo. subst. auto.
  - intros [= <-]. split; [|split].
    + rewrite find_cell_app, E, find_cell_cons. now rewrite (proj2 (cell_eqb_eq c c) eq_refl).
    + intros d y H. now rewrite find_cell_app, H.
    + intros d y H. rewrite find_cell_app in H. destruct (find_cell m d); auto. rewrite find_cell_cons in H. destruct (cell_eqb c d) eqn:Ec; [|discriminate].
      apply cell_eqb_eq in Ec. injection H as <-. auto.
Qed.

Definition wr_of (vw : Assigned p * (pc * option pc)) : list (pc * Assigned p) := map (fun x => (x, fst vw)) (wlocs (snd vw)).
Definition cp_of (w : pc * option pc) : list (pc * pc) := match snd w with Some y => [(y, fst w)] | None => [] end.
Definition bp_of (w : pc * option pc) : list nat := match snd w with Some _ => [snd (fst w)] | None => [] end.
Definition en_of (qw : bool * (pc * option pc)) : list pc := if fst qw then [gloc (snd qw)] else [].

(** everything one context contributes *)
Lemma place_all_spec ncols maxr c l : forall s i s', place_all ncols maxr c s i l = Some s' ->
  let qs := map snd l in let W := walk maxr (l_g s) (l_r s) qs in
  l_wr s' = l_wr s ++ flat_map wr_of (combine (map fst l) W) /\
  l_cp s' = l_cp s ++ flat_map cp_of W /\
  l_en s' = l_en s ++ flat_map en_of (combine qs W) /\
  l_bp s' = l_bp s ++ flat_map bp_of W /\
  (l_g s', l_r s') = walk_end maxr (l_g s) (l_r s) qs /\
  (forall d y, find_cell (l_map s) d = Some y -> find_cell (l_map s') d = Some y) /\
  (forall k w, nth_error W k = Some w -> find_cell (l_map s') (vcell c (i + k)) = Some (fst w)) /\
  (forall d y, find_cell (l_map s') d = Some y -> find_cell (l_map s) d = Some y \/ exists k w, nth_error W k = Some w /\ d = vcell c (i + k) /\ y = fst w) /\
  (forall k w, nth_error W k = Some w -> snd w <> None -> overlap_ok (vc_sel c) (i + k) = true) /\
  (l_g s < ncols -> l_g s' < ncols).
Proof.
  induction l as [|[v q] l IH]; intros s i s' E; cbn [place_all] in E.
  { injection E as <-. cbn. rewrite !app_nil_r. repeat split; auto; destruct k; discriminate. }
  destruct (place ncols maxr c s i v q) as [s1|] eqn:E1; [|discriminate]. specialize (IH s1 (S i) s' E). clear E.
  unfold place in E1. destruct (insert_cell (l_map s) (vcell c i) (l_g s, l_r s)) as [m|] eqn:EI; [|discriminate].
  apply insert_spec in EI as (I1 & I2 & I3). cbn [map fst snd walk walk_end].
  assert (EK : forall k, vcell c (S i + k) = vcell c (i + S k)) by (intros; f_equal; lia).
  destruct (brk maxr (l_r s) q) eqn:EB.
  - destruct (overlap_ok (vc_sel c) i) eqn:EO; [|discriminate]. destruct (Nat.ltb (S (l_g s)) ncols) eqn:EN; [|discriminate]. injection E1 as <-.
    cbn [l_map l_wr l_cp l_en l_bp l_g l_r] in IH. cbv zeta in IH. destruct IH as (H1 & H2 & H3 & H4 & H5 & H6 & H7 & H8 & H9 & H10).
    cbn [combine flat_map]. split; [rewrite H1, <- app_assoc; reflexivity|]. split; [rewrite H2, <- app_assoc; reflexivity|].
    split; [rewrite H3; destruct q; cbn; rewrite <- ?app_assoc; reflexivity|]. split; [rewrite H4, <- app_assoc; reflexivity|].
    split; [exact H5|]. split; [auto|]. split; [|split; [|split]].
    + intros [|k] w Hk; cbn [nth_error] in Hk. { injection Hk as <-. rewrite Nat.add_0_r. cbn. auto. } rewrite <- EK. auto.
    + intros d y Hd. apply H8 in Hd as [Hd|(k & w & Hk & -> & ->)]. { apply I3 in Hd as [Hd|[-> ->]]; auto. right. exists 0, ((l_g s, l_r s), Some (S (l_g s), 0)). rewrite Nat.add_0_r. auto. }
      right. exists (S k), w. rewrite <- EK. auto.
    + intros [|k] w Hk Hw; cbn [nth_error] in Hk. { now rewrite Nat.add_0_r. } replace (i + S k) with (S i + k) by lia. eauto.
    + intros _. apply H10. now apply Nat.ltb_lt.
  - injection E1 as <-.
    cbn [l_map l_wr l_cp l_en l_bp l_g l_r] in IH. cbv zeta in IH. destruct IH as (H1 & H2 & H3 & H4 & H5 & H6 & H7 & H8 & H9 & H10).
    cbn [combine flat_map]. split; [rewrite H1, <- app_assoc; reflexivity|]. split; [rewrite H2; reflexivity|].
    split; [rewrite H3; destruct q; cbn; rewrite <- ?app_assoc; reflexivity|]. split; [rewrite H4; reflexivity|].
    split; [exact H5|]. split; [auto|]. split; [|split; [|split]]; auto.
    + intros [|k] w Hk; cbn [nth_error] in Hk. { injection Hk as <-. rewrite Nat.add_0_r. cbn. auto. } rewrite <- EK. auto.
    + intros d y Hd. apply H8 in Hd as [Hd|(k & w & Hk & -> & ->)]. { apply I3 in Hd as [Hd|[-> ->]]; auto. right. exists 0, ((l_g s, l_r s), None). rewrite Nat.add_0_r. auto. }
      right. exists (S k), w. rewrite <- EK. auto.
    + intros [|k] w Hk Hw; cbn [nth_error] in Hk. { injection Hk as <-. cbn in Hw. congruence. } replace (i + S k) with (S i + k) by lia. eauto.
Qed.

(** ** The whole pass as a list of placements *)
Record plm := mkPlm { P_cell : cell; P_val : Assigned p; P_q : bool; P_w : pc * option pc }.
Definition items (c : vctx) : list (Assigned p * bool) := combine (vc_adv c) (vc_sel c).
Definition esel (c : vctx) : list bool := map snd (items c).
Fixpoint plc_items (c : vctx) (i : nat) (l : list (Assigned p * bool)) (W : list (pc * option pc)) : list plm :=
  match l, W with
  | (v, q) :: l, w :: W => mkPlm (vcell c i) v q w :: plc_items c (S i) l W
  | _, _ => []
  end.
Definition plc_ctx (maxr g row : nat) (c : vctx) : list plm := plc_items c 0 (items c) (walk maxr g row (esel c)).
Fixpoint plc (maxr g row : nat) (cs : list vctx) : list plm :=
  match cs with
  | [] => []
  | c :: cs => plc_ctx maxr g row c ++ let e := walk_end maxr g row (esel c) in plc maxr (fst e) (snd e) cs
  end.
Definition plc_end (maxr g row : nat) (cs : list vctx) : pc := walk_end maxr g row (flat_map esel cs).
Definition P_wr (x : plm) := wr_of (P_val x, P_w x).
Definition P_cp (x : plm) := cp_of (P_w x).
Definition P_bp (x : plm) := bp_of (P_w x).
Definition P_en (x : plm) := en_of (P_q x, P_w x).
Definition P_locs (x : plm) := wlocs (P_w x).

Lemma plc_items_maps c l : forall i W, length W = length l ->
  flat_map P_wr (plc_items c i l W) = flat_map wr_of (combine (map fst l) W) /\
  flat_map P_cp (plc_items c i l W) = flat_map cp_of W /\
  flat_map P_bp (plc_items c i l W) = flat_map bp_of W /\
  flat_map P_en (plc_items c i l W) = flat_map en_of (combine (map snd l) W) /\
  flat_map P_locs (plc_items c i l W) = flat_map wlocs W.
Proof.
  induction l as [|[v q] l IH]; intros i [|w W] HL; cbn in HL; try discriminate; [cbn; auto 6|]. injection HL as HL.
  destruct (IH (S i) W HL) as (H1 & H2 & H3 & H4 & H5). cbn [plc_items flat_map map combine fst snd]. rewrite H1, H2, H3, H4, H5. auto 6.
Qed.
Lemma plc_items_nth c l : forall i W k x, nth_error (plc_items c i l W) k = Some x <->
  exists v q w, nth_error l k = Some (v, q) /\ nth_error W k = Some w /\ x = mkPlm (vcell c (i + k)) v q w.
Proof.
  induction l as [|[v q] l IH]; intros i W k x; cbn [plc_items].
  { split; [destruct k; discriminate|]. intros (? & ? & ? & H & _). destruct k; discriminate. }
  destruct W as [|w W]. { split; [destruct k; discriminate|]. intros (? & ? & ? & _ & H & _). destruct k; discriminate. }
  destruct k as [|k]; cbn [nth_error].
  - rewrite Nat.add_0_r. split; [intros [= <-]; eauto 6|]. intros (v' & q' & w' & E1 & E2 & E3). injection E1 as -> ->. injection E2 as ->. now rewrite E3.
  - rewrite IH. replace (S i + k) with (i + S k) by lia. reflexivity.
Qed.

Lemma place_ctx_spec ncols maxr c s s' : place_ctx ncols maxr s c = Some s' ->
  let PL := plc_ctx maxr (l_g s) (l_r s) c in
  l_wr s' = l_wr s ++ flat_map P_wr PL /\ l_cp s' = l_cp s ++ flat_map P_cp PL /\ l_en s' = l_en s ++ flat_map P_en PL /\
  l_bp s' = l_bp s ++ flat_map P_bp PL /\ (l_g s', l_r s') = walk_end maxr (l_g s) (l_r s) (esel c) /\
  (forall d y, find_cell (l_map s) d = Some y -> find_cell (l_map s') d = Some y) /\
  (forall x, In x PL -> find_cell (l_map s') (P_cell x) = Some (fst (P_w x))) /\
  (forall d y, find_cell (l_map s') d = Some y -> find_cell (l_map s) d = Some y \/ exists x, In x PL /\ d = P_cell x /\ y = fst (P_w x)) /\
  (forall k w, nth_error (walk maxr (l_g s) (l_r s) (esel c)) k = Some w -> snd w <> None -> overlap_ok (vc_sel c) k = true) /\
  length (vc_adv c) = length (esel c) /\ (vc_adv c <> [] -> vc_sel c = esel c) /\ (vc_adv c <> [] -> l_g s < ncols /\ l_g s' < ncols).
Proof.
  intros E. unfold place_ctx in E. destruct (vc_adv c) as [|a av] eqn:EA.
  { injection E as <-. unfold plc_ctx, esel, items. rewrite EA. cbn. rewrite !app_nil_r. repeat (split; auto); try congruence; try (intros ? []; fail); try (intros [|k] w Hk; discriminate). }
  rewrite <- EA in *. destruct (Nat.ltb (l_g s) ncols) eqn:EN; [|discriminate]. destruct (Nat.eqb (length (vc_sel c)) (length (vc_adv c))) eqn:EL; [|discriminate].
  apply Nat.eqb_eq in EL. apply Nat.ltb_lt in EN. fold (items c) in E.
  assert (ES : esel c = vc_sel c).
  { unfold esel, items. clear -EL. revert EL. generalize (vc_adv c). induction (vc_sel c) as [|b l IH]; intros [|a k]; cbn; try discriminate; auto. intros H. f_equal. apply IH. lia. }
  apply place_all_spec in E. fold (esel c) in E. cbv zeta in E. destruct E as (H1 & H2 & H3 & H4 & H5 & H6 & H7 & H8 & H9 & H10).
  destruct (plc_items_maps c (items c) 0 (walk maxr (l_g s) (l_r s) (esel c))) as (M1 & M2 & M3 & M4 & M5).
  { rewrite walk_len. unfold esel. now rewrite map_length. }
  unfold plc_ctx. cbv zeta. rewrite M1, M2, M3, M4. repeat (split; [assumption|]). split; [|split; [|split; [|split]]]; auto.
  - intros x Hx. apply In_nth_error in Hx as (k & Hk). apply plc_items_nth in Hk as (v & q & w & _ & Hw & ->). cbn. apply (H7 k w Hw).
  - intros d y Hd. apply H8 in Hd as [Hd|(k & w & Hk & -> & ->)]; auto. right.
    assert (k < length (items c)). { assert (H : nth_error (walk maxr (l_g s) (l_r s) (esel c)) k <> None) by congruence. apply nth_error_Some in H. rewrite walk_len in H. unfold esel in H. now rewrite map_length in H. }
    destruct (nth_error (items c) k) as [[v q]|] eqn:Ei; [|apply nth_error_None in Ei; lia].
    exists (mkPlm (vcell c (0 + k)) v q w). split; auto. eapply nth_error_In. apply plc_items_nth. eauto 6.
  - rewrite ES. auto.
Qed.

Lemma place_ctxs_spec ncols maxr cs : forall s s', place_ctxs ncols maxr s cs = Some s' ->
  let PL := plc maxr (l_g s) (l_r s) cs in
  l_wr s' = l_wr s ++ flat_map P_wr PL /\ l_cp s' = l_cp s ++ flat_map P_cp PL /\ l_en s' = l_en s ++ flat_map P_en PL /\
  l_bp s' = l_bp s ++ flat_map P_bp PL /\ (l_g s', l_r s') = plc_end maxr (l_g s) (l_r s) cs /\
  (forall d y, find_cell (l_map s) d = Some y -> find_cell (l_map s') d = Some y) /\
  (forall x, In x PL -> find_cell (l_map s') (P_cell x) = Some (fst (P_w x))) /\
  (forall d y, find_cell (l_map s') d = Some y -> find_cell (l_map s) d = Some y \/ exists x, In x PL /\ d = P_cell x /\ y = fst (P_w x)) /\
  (forall c, In c cs -> exists g row, incl (plc_ctx maxr g row c) PL /\
      (forall k w, nth_error (walk maxr g row (esel c)) k = Some w -> snd w <> None -> overlap_ok (vc_sel c) k = true) /\
      length (vc_adv c) = length (esel c) /\ (vc_adv c <> [] -> vc_sel c = esel c)) /\
  (flat_map vc_adv cs <> [] -> l_g s' < ncols).
Proof.
  induction cs as [|c cs IH]; intros s s' E; cbn [place_ctxs] in E.
  { injection E as <-. cbn. rewrite !app_nil_r. repeat (split; auto); try tauto; try congruence. }
  destruct (place_ctx ncols maxr s c) as [s1|] eqn:E1; [|discriminate]. specialize (IH s1 s' E). apply place_ctx_spec in E1. cbv zeta in *.
  destruct E1 as (A1 & A2 & A3 & A4 & A5 & A6 & A7 & A8 & A9 & A10 & A11 & A12). cbn [plc]. rewrite <- A5. cbn [fst snd].
  destruct IH as (B1 & B2 & B3 & B4 & B5 & B6 & B7 & B8 & B9 & B10). rewrite !flat_map_app.
  split; [rewrite B1, A1, <- app_assoc; auto|]. split; [rewrite B2, A2, <- app_assoc; auto|]. split; [rewrite B3, A3, <- app_assoc; auto|].
  split; [rewrite B4, A4, <- app_assoc; auto|]. split. { rewrite B5. unfold plc_end. cbn [flat_map]. rewrite walk_end_app. cbv zeta. now rewrite <- A5. }
  split; [auto|]. split; [|split; [|split]].
  - intros x Hx. apply in_app_or in Hx as [Hx|Hx]; auto.
  - intros d y Hd. apply B8 in Hd as [Hd|(x & Hx & -> & ->)].
    + apply A8 in Hd as [Hd|(x & Hx & -> & ->)]; auto. right. exists x. rewrite in_app_iff. auto.
    + right. exists x. rewrite in_app_iff. auto.
  - intros c' [<-|Hc'].
    + exists (l_g s), (l_r s). split; [now apply incl_appl|]. auto.
    + destruct (B9 c' Hc') as (g & row & H1 & H2 & H3). exists g, row. split; [now apply incl_appr|]. auto.
  - intros Hne. destruct (flat_map vc_adv cs) as [|a l] eqn:EF; [|apply B10; congruence]. cbn [flat_map] in Hne. rewrite EF, app_nil_r in Hne. apply A12 in Hne as [_ Hne].
    assert (l_g s' = l_g s1); [|lia].
    assert (forall c, In c cs -> esel c = []). { intros c' Hc'. destruct (B9 c' Hc') as (g & row & _ & _ & H & _).
      assert (vc_adv c' = []). { destruct (vc_adv c') as [|a l] eqn:Ec; auto. assert (In a (flat_map vc_adv cs)) by (apply in_flat_map; exists c'; rewrite Ec; split; auto; now left). rewrite EF in H0. destruct H0. }
      rewrite H0 in H. destruct (esel c'); auto; discriminate. }
    assert (flat_map esel cs = []). { clear -H. induction cs as [|c cs IH]; cbn; auto. rewrite (H c) by now left. apply IH. intros; apply H; now right. }
    unfold plc_end in B5. rewrite H0 in B5. cbn in B5. congruence.
Qed.
Lemma plc_locs maxr cs : forall g row, flat_map P_locs (plc maxr g row cs) = flat_map wlocs (walk maxr g row (flat_map esel cs)).
Proof.
  induction cs as [|c cs IH]; intros; cbn [plc flat_map]; auto. rewrite flat_map_app, walk_app, flat_map_app. cbv zeta. rewrite IH. f_equal.
  unfold plc_ctx. apply plc_items_maps. rewrite walk_len. unfold esel. now rewrite map_length.
Qed.
End P.
