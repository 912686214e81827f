(** Layout: break-point replay, sufficient column counts, and the second (proving) run. *)
From Coq Require Import ZArith Lia List Bool.
From Verif Require Import Field Spec Context ContextProofs SatCheck Layout LayoutProofs LayoutProofs2.
Import ListNotations.

Section P.
Context {p : positive}.
Notation Fp := (F p).
Notation vctx := (vctx p).
Notation lay := (lay p).
Implicit Types c : vctx.
Implicit Types cs : list vctx.

(** ** replaying break points *)
Lemma bp_head maxr qs : forall g row b t, flat_map bp_of (walk maxr g row qs) = b :: t -> row <= b.
Proof.
  induction qs as [|q qs IH]; intros g row b t H; cbn [walk] in H; [discriminate|]. destruct (brk maxr row q); cbn in H.
  - injection H as <- _. auto.
  - apply IH in H. lia.
Qed.
Lemma walk_end_mono maxr qs : forall g row, g <= fst (walk_end maxr g row qs).
Proof. induction qs as [|q qs IH]; intros; cbn [walk_end]; auto. destruct (brk maxr row q); [specialize (IH (S g) 1)|specialize (IH g (S row))]; lia. Qed.
Lemma wit_loop_spec ncols maxr qs : forall (vs : list (Assigned p)) g row, length vs = length qs -> fst (walk_end maxr g row qs) < ncols ->
  wit_loop ncols (flat_map bp_of (walk maxr g row qs)) g row vs =
  Some (flat_map wr_of (combine vs (walk maxr g row qs)), ([], walk_end maxr g row qs)).
Proof.
  induction qs as [|q qs IH]; intros [|v vs] g row HL HN; cbn in HL; try discriminate; [reflexivity|]. injection HL as HL.
  cbn [walk walk_end] in *. destruct (brk maxr row q) eqn:EB.
  - cbn [flat_map bp_of fst snd app wit_loop combine]. rewrite Nat.eqb_refl. pose proof (walk_end_mono maxr qs (S g) 1).
    assert (Nat.ltb (S g) ncols = true) as -> by (apply Nat.ltb_lt; lia). rewrite (IH vs (S g) 1 HL HN). reflexivity.
  - cbn [flat_map bp_of fst snd app combine]. specialize (IH vs g (S row) HL HN).
    destruct (flat_map bp_of (walk maxr g (S row) qs)) as [|b t] eqn:Eb; cbn [wit_loop].
    + rewrite IH. reflexivity.
    + apply bp_head in Eb. assert (Nat.eqb b row = false) as -> by (apply Nat.eqb_neq; lia). rewrite IH. reflexivity.
Qed.

Lemma combine_app {A B} (a a' : list A) (b b' : list B) : length a = length b -> combine (a ++ a') (b ++ b') = combine a b ++ combine a' b'.
Proof. revert b. induction a as [|x a IH]; intros [|y b]; cbn; try discriminate; auto. intros [= H]. f_equal. auto. Qed.
Lemma plc_wr maxr cs : forall g row, flat_map P_wr (plc maxr g row cs) =
  flat_map wr_of (combine (flat_map (fun c => map fst (items c)) cs) (walk maxr g row (flat_map esel cs))).
Proof.
  induction cs as [|c cs IH]; intros; cbn [plc flat_map]; auto. rewrite flat_map_app, walk_app. cbv zeta. rewrite IH, combine_app, flat_map_app.
  - f_equal. unfold plc_ctx. apply plc_items_maps. rewrite walk_len. unfold esel. now rewrite map_length.
  - rewrite walk_len. unfold esel. now rewrite !map_length.
Qed.
Lemma plc_bp maxr cs : forall g row, flat_map P_bp (plc maxr g row cs) = flat_map bp_of (walk maxr g row (flat_map esel cs)).
Proof.
  induction cs as [|c cs IH]; intros; cbn [plc flat_map]; auto. rewrite flat_map_app, walk_app, flat_map_app. cbv zeta. rewrite IH. f_equal.
  unfold plc_ctx. apply plc_items_maps. rewrite walk_len. unfold esel. now rewrite map_length.
Qed.
Lemma map_fst_combine {A B} (a : list A) (b : list B) : length a <= length b -> map fst (combine a b) = a.
Proof. revert b. induction a as [|x a IH]; intros [|y b] H; cbn in *; auto; try lia. f_equal. apply IH. lia. Qed.
Lemma items_fst c : length (vc_adv c) = length (esel c) -> map fst (items c) = vc_adv c.
Proof.
  unfold esel, items. rewrite map_length, combine_length. intros H. apply map_fst_combine. lia.
Qed.

Lemma flat_map_ext_in {A B} (f g : A -> list B) l : (forall a, In a l -> f a = g a) -> flat_map f l = flat_map g l.
Proof. induction l as [|a l IH]; intros H; cbn; auto. rewrite (H a), IH; auto; [intros; apply H; now right|now left]. Qed.
Lemma replay_same ncols maxr m0 cs L : assign_with_constraints ncols maxr m0 cs = Some L -> ncols <> 0 ->
  assign_witnesses_raw ncols cs (l_bp L) = Some (l_wr L).
Proof.
  intros E Hn. pose proof (pass_spec ncols maxr m0 cs L E) as (HW & _ & _ & HB & HE & _ & _ & _ & HN).
  assert (HI : flat_map (fun c => map fst (items c)) cs = flat_map vc_adv cs).
  { apply flat_map_ext_in. intros c Hc. destruct (in_starts maxr cs c Hc) as (s & Hs). apply items_fst. eapply place_starts; [exact E|exact Hs]. }
  rewrite plc_wr, HI in HW. rewrite plc_bp in HB. unfold assign_witnesses_raw. destruct ncols as [|n]; [lia|]. rewrite HB, HW.
  rewrite wit_loop_spec; auto.
  - rewrite <- HI. clear. induction cs as [|c cs IH]; cbn; auto. rewrite !app_length, IH. unfold esel. now rewrite !map_length.
  - unfold plc_end in HE. rewrite <- HE. cbn. destruct (flat_map vc_adv cs) as [|a l] eqn:EF; [|apply HN; congruence].
    assert (flat_map esel cs = []) as H0. { clear EF. rename HI into EF. clear -EF. induction cs as [|c cs IH]; cbn in *; auto. apply app_eq_nil in EF as [E1 E2]. rewrite IH by auto. unfold esel. destruct (items c); [auto|discriminate]. }
    rewrite H0 in HE. cbn in HE. injection HE as -> _. lia.
Qed.

(** ** the pass does not look at values *)
Definition same_shape (c c' : vctx) : Prop := vc_tid c = vc_tid c' /\ vc_cid c = vc_cid c' /\ vc_sel c = vc_sel c' /\ length (vc_adv c) = length (vc_adv c').
Definition lay_eq (s s' : lay) : Prop :=
  l_map s = l_map s' /\ l_cp s = l_cp s' /\ l_en s = l_en s' /\ l_bp s = l_bp s' /\ l_g s = l_g s' /\ l_r s = l_r s' /\ map fst (l_wr s) = map fst (l_wr s').
Lemma place_sim ncols maxr c c' s s' i v v' q s1 : same_shape c c' -> lay_eq s s' -> place ncols maxr c s i v q = Some s1 ->
  exists s1', place ncols maxr c' s' i v' q = Some s1' /\ lay_eq s1 s1'.
Proof.
  intros (A1 & A2 & A3 & A4) (B1 & B2 & B3 & B4 & B5 & B6 & B7) E. unfold place in *. unfold vcell in *. rewrite <- A1, <- A2, <- A3, <- B1, <- B2, <- B3, <- B4, <- B5, <- B6.
  destruct (insert_cell _ _ _) as [m|]; [|discriminate]. destruct (brk maxr (l_r s) q).
  - destruct (overlap_ok (vc_sel c) i); [|discriminate]. destruct (Nat.ltb (S (l_g s)) ncols); [|discriminate]. injection E as <-. eexists. split; [reflexivity|].
    unfold lay_eq; cbn; rewrite !map_app, B7; auto 10.
  - injection E as <-. eexists. split; [reflexivity|]. unfold lay_eq; cbn; rewrite !map_app, B7; auto 10.
Qed.
Lemma place_all_sim ncols maxr c c' l : forall l' s s' i s1, same_shape c c' -> lay_eq s s' -> map snd l = map snd l' -> place_all ncols maxr c s i l = Some s1 ->
  exists s1', place_all ncols maxr c' s' i l' = Some s1' /\ lay_eq s1 s1'.
Proof.
  induction l as [|[v q] l IH]; intros [|[v' q'] l'] s s' i s1 HS HE HL E; cbn in HL; try discriminate.
  - injection E as <-. exists s'. auto.
  - injection HL as <- HL. cbn [place_all] in *. destruct (place ncols maxr c s i v q) as [s2|] eqn:E1; [|discriminate].
    destruct (place_sim _ _ _ _ _ _ _ _ v' _ _ HS HE E1) as (s2' & -> & HE2). eapply IH; eauto.
Qed.
Lemma map_snd_combine {A B} (a a' : list A) (b : list B) : length a = length a' -> map snd (combine a b) = map snd (combine a' b).
Proof. revert a' b. induction a as [|x a IH]; intros [|x' a'] [|y b] H; cbn in *; auto; try discriminate. f_equal. auto. Qed.
Lemma place_ctx_sim ncols maxr c c' s s' s1 : same_shape c c' -> lay_eq s s' -> place_ctx ncols maxr s c = Some s1 ->
  exists s1', place_ctx ncols maxr s' c' = Some s1' /\ lay_eq s1 s1'.
Proof.
  intros HS HE E. pose proof HS as (A1 & A2 & A3 & A4). pose proof HE as (B1 & B2 & B3 & B4 & B5 & B6 & B7). unfold place_ctx in *. rewrite <- B5, <- A3.
  destruct (vc_adv c) as [|a l] eqn:EA, (vc_adv c') as [|a' l'] eqn:EA'; cbn in A4; try discriminate.
  - injection E as <-. eauto.
  - rewrite <- EA, <- EA' in *. destruct (Nat.ltb (l_g s) ncols); [|discriminate].
    assert (length (vc_adv c) = length (vc_adv c')) as <- by (rewrite EA, EA'; cbn; lia). destruct (Nat.eqb _ _); [|discriminate].
    eapply place_all_sim; [exact HS|exact HE| |exact E]. apply map_snd_combine. rewrite EA, EA'. cbn. lia.
Qed.
Lemma place_ctxs_sim ncols maxr cs : forall cs' s s' s1, Forall2 same_shape cs cs' -> lay_eq s s' -> place_ctxs ncols maxr s cs = Some s1 ->
  exists s1', place_ctxs ncols maxr s' cs' = Some s1' /\ lay_eq s1 s1'.
Proof.
  induction cs as [|c cs IH]; intros cs' s s' s1 HF HE E; inversion HF as [|? c' ? cs'' HS HF']; subst; cbn [place_ctxs] in *.
  - injection E as <-. eauto.
  - destruct (place_ctx ncols maxr s c) as [s2|] eqn:E1; [|discriminate]. destruct (place_ctx_sim _ _ _ _ _ _ _ HS HE E1) as (s2' & -> & HE2). eapply IH; eauto.
Qed.
Lemma pass_sim ncols maxr m0 cs cs' L : Forall2 same_shape cs cs' -> assign_with_constraints ncols maxr m0 cs = Some L ->
  exists L', assign_with_constraints ncols maxr m0 cs' = Some L' /\ lay_eq L L'.
Proof. intros HF E. eapply place_ctxs_sim; eauto. repeat split. Qed.

(** ** a second keygen run over the map left by the first gives the same result *)
Lemma place_again ncols maxr c s s' i v q s1 : l_g s = l_g s' -> l_r s = l_r s' -> place ncols maxr c s i v q = Some s1 ->
  find_cell (l_map s') (vcell c i) = Some (l_g s, l_r s) ->
  l_wr s = l_wr s' -> l_cp s = l_cp s' -> l_en s = l_en s' -> l_bp s = l_bp s' ->
  exists s1', place ncols maxr c s' i v q = Some s1' /\ l_map s1' = l_map s' /\ l_wr s1 = l_wr s1' /\ l_cp s1 = l_cp s1' /\ l_en s1 = l_en s1' /\ l_bp s1 = l_bp s1' /\ l_g s1 = l_g s1' /\ l_r s1 = l_r s1'.
Proof.
  intros B5 B6 E HF B1 B2 B3 B4. unfold place in *. rewrite <- B1, <- B2, <- B3, <- B4, <- B5, <- B6.
  assert (insert_cell (l_map s') (vcell c i) (l_g s, l_r s) = Some (l_map s')) as ->. { unfold insert_cell. rewrite HF. now rewrite (proj2 (pc_eqb_eq _ _) eq_refl). }
  destruct (insert_cell _ _ _) as [m|]; [|discriminate]. destruct (brk maxr (l_r s) q).
  - destruct (overlap_ok (vc_sel c) i); [|discriminate]. destruct (Nat.ltb (S (l_g s)) ncols); [|discriminate]. injection E as <-. eexists. split; [reflexivity|]. cbn. auto 10.
  - injection E as <-. eexists. split; [reflexivity|]. cbn. auto 10.
Qed.
Definition again (M : list (cell * pc)) (s s' : lay) : Prop :=
  l_map s' = M /\ l_wr s = l_wr s' /\ l_cp s = l_cp s' /\ l_en s = l_en s' /\ l_bp s = l_bp s' /\ l_g s = l_g s' /\ l_r s = l_r s'.
Lemma place_all_again M ncols maxr c l : forall s s' i s1, again M s s' -> place_all ncols maxr c s i l = Some s1 ->
  (forall d y, find_cell (l_map s1) d = Some y -> find_cell M d = Some y) ->
  exists s1', place_all ncols maxr c s' i l = Some s1' /\ again M s1 s1'.
Proof.
  induction l as [|[v q] l IH]; intros s s' i s1 HA E HM; cbn [place_all] in *.
  - injection E as <-. eauto.
  - destruct (place ncols maxr c s i v q) as [s2|] eqn:E1; [|discriminate]. destruct HA as (A0 & A1 & A2 & A3 & A4 & A5 & A6).
    assert (HF : find_cell M (vcell c i) = Some (l_g s, l_r s)).
    { apply HM. eapply (proj1 (proj2 (proj2 (proj2 (proj2 (proj2 (place_all_spec _ _ _ _ _ _ _ E))))))). cbv zeta.
      unfold place in E1. destruct (insert_cell (l_map s) (vcell c i) (l_g s, l_r s)) as [m|] eqn:EI; [|discriminate]. apply insert_spec in EI as (I1 & _).
      destruct (brk maxr (l_r s) q); [destruct (overlap_ok _ _); [|discriminate]; destruct (Nat.ltb _ _); [|discriminate]|]; injection E1 as <-; exact I1. }
    rewrite <- A0 in HF. destruct (place_again _ _ _ _ _ _ _ _ _ A5 A6 E1 HF A1 A2 A3 A4) as (s2' & -> & C0 & C1 & C2 & C3 & C4 & C5 & C6).
    eapply IH; eauto. unfold again. rewrite C0. auto 10.
Qed.
Lemma place_ctx_again M ncols maxr c s s' s1 : again M s s' -> place_ctx ncols maxr s c = Some s1 ->
  (forall d y, find_cell (l_map s1) d = Some y -> find_cell M d = Some y) ->
  exists s1', place_ctx ncols maxr s' c = Some s1' /\ again M s1 s1'.
Proof.
  intros HA E HM. unfold place_ctx in *. pose proof HA as (_ & _ & _ & _ & _ & A5 & _). rewrite <- A5.
  destruct (vc_adv c); [injection E as <-; eauto|]. destruct (Nat.ltb _ _); [|discriminate]. destruct (Nat.eqb _ _); [|discriminate]. eapply place_all_again; eauto.
Qed.
Lemma place_ctxs_again M ncols maxr cs : forall s s' s1, again M s s' -> place_ctxs ncols maxr s cs = Some s1 ->
  (forall d y, find_cell (l_map s1) d = Some y -> find_cell M d = Some y) ->
  exists s1', place_ctxs ncols maxr s' cs = Some s1' /\ again M s1 s1'.
Proof.
  induction cs as [|c cs IH]; intros s s' s1 HA E HM; cbn [place_ctxs] in *.
  - injection E as <-. eauto.
  - destruct (place_ctx ncols maxr s c) as [s2|] eqn:E1; [|discriminate].
    destruct (place_ctx_again M _ _ _ _ _ _ HA E1) as (s2' & -> & HA2). { intros d y Hd. apply HM. eapply (proj1 (proj2 (proj2 (proj2 (proj2 (proj2 (place_ctxs_spec _ _ _ _ _ E))))))). exact Hd. }
    eapply IH; eauto.
Qed.
Lemma pass_again ncols maxr m0 cs L : assign_with_constraints ncols maxr m0 cs = Some L -> assign_with_constraints ncols maxr (l_map L) cs = Some L.
Proof.
  intros E. destruct (place_ctxs_again (l_map L) ncols maxr cs (mkLay m0 [] [] [] [] 0 0) (mkLay (l_map L) [] [] [] [] 0 0) L ltac:(repeat split) E ltac:(auto)) as (L' & E' & A0 & A1 & A2 & A3 & A4 & A5 & A6).
  unfold assign_with_constraints. rewrite E'. f_equal. destruct L, L'; cbn in *; subst; auto.
Qed.

(** ** enough columns *)
Definition fresh (m : list (cell * pc)) (c : vctx) (i : nat) : Prop := forall k, i <= k -> find_cell m (vcell c k) = None.
Definition spaced (sel : list bool) : Prop := forall i j, nth_error sel i = Some true -> nth_error sel j = Some true -> i < j -> i + 3 <= j.
Lemma nth_true sel i : nth i sel false = true -> nth_error sel i = Some true.
Proof. intros H. destruct (nth_error sel i) as [b|] eqn:E; [rewrite (nth_error_nth _ _ false E) in H; congruence|]. apply nth_error_None in E. rewrite nth_overflow in H by lia. discriminate. Qed.
(** number of cells placed so far: each finished column took at least [maxr - 3] of them *)
Lemma place_all_total ncols maxr c l : forall s i, 4 <= maxr -> l_r s < maxr -> spaced (vc_sel c) ->
  (forall k, nth_error (map snd l) k = nth_error (vc_sel c) (i + k)) -> length (vc_sel c) = i + length l ->
  fresh (l_map s) c i -> forall n, (maxr - 3) * l_g s + l_r s <= n -> n + length l <= ncols * (maxr - 3) ->
  (forall k, nth_error (vc_sel c) k = Some true -> k + 3 < length (vc_sel c)) ->
  (forall k, k < i < k + 3 -> nth_error (vc_sel c) k = Some true -> l_r s + (k + 3 - i) < maxr) ->
  exists s', place_all ncols maxr c s i l = Some s' /\ (maxr - 3) * l_g s' + l_r s' <= n + length l /\ l_r s' < maxr /\
    (forall d, find_cell (l_map s') d <> None -> find_cell (l_map s) d <> None \/ exists k, d = vcell c k).
Proof.
  induction l as [|[v q] l IH]; intros s i Hm Hr Hsp Hq Hlen Hf n Hn Ht Hin Hg.
  { exists s. cbn [length place_all] in *. split; auto. split; [lia|]. auto. }
  cbn [place_all]. unfold place. unfold insert_cell. rewrite (Hf i) by lia. cbn [length] in *.
  assert (Hqi : nth_error (vc_sel c) i = Some q). { specialize (Hq 0). cbn in Hq. rewrite Nat.add_0_r in Hq. auto. }
  assert (Hq' : forall k, nth_error (map snd l) k = nth_error (vc_sel c) (S i + k)). { intros k. specialize (Hq (S k)). cbn in Hq. rewrite Hq. f_equal. lia. }
  assert (HE : forall k, k < i < k + 3 -> nth_error (vc_sel c) k = Some true -> q = false /\ l_r s + 1 < maxr).
  { intros k Hk Hkt. split.
    - destruct q; auto. pose proof (Hsp k i Hkt Hqi ltac:(lia)). lia.
    - specialize (Hg k ltac:(lia) Hkt). lia. }
  assert (Hfr : fresh (l_map s ++ [(vcell c i, (l_g s, l_r s))]) c (S i)).
  { intros k Hk. rewrite find_cell_app, Hf by lia. rewrite find_cell_cons. destruct (cell_eqb (vcell c i) (vcell c k)) eqn:Ec; [|auto].
    apply cell_eqb_eq in Ec. unfold vcell in Ec. injection Ec. lia. }
  assert (Hcv : forall m d, find_cell m d <> None -> (forall d, find_cell m d <> None -> find_cell (l_map s ++ [(vcell c i, (l_g s, l_r s))]) d <> None \/ exists k, d = vcell c k) ->
     find_cell (l_map s) d <> None \/ exists k, d = vcell c k).
  { intros m d Hd Hmd. destruct (Hmd d Hd) as [H|H]; auto. rewrite find_cell_app in H. destruct (find_cell (l_map s) d); [left; congruence|]. rewrite find_cell_cons in H.
    destruct (cell_eqb (vcell c i) d) eqn:Ec; [|cbn in H; congruence]. apply cell_eqb_eq in Ec. eauto. }
  destruct (brk maxr (l_r s) q) eqn:EB.
  - assert (Hrow : maxr - 3 <= l_r s). { unfold brk in EB. apply orb_prop in EB as [EB|EB]; [apply andb_prop in EB as [_ EB]; apply Nat.ltb_lt in EB; lia|apply Nat.leb_le in EB; lia]. }
    assert (overlap_ok (vc_sel c) i = true) as ->.
    { unfold overlap_ok. destruct (Nat.leb_spec 4 (i + 2)); auto.
      assert (K : forall k, k < i < k + 3 -> nth k (vc_sel c) false = false).
      { intros k Hk. destruct (nth k (vc_sel c) false) eqn:Ek; auto. apply nth_true in Ek. destruct (HE k Hk Ek) as [-> H1]. unfold brk in EB. cbn in EB. apply Nat.leb_le in EB. lia. }
      rewrite (K (i - 1)), (K (i - 2)) by lia. reflexivity. }
    assert (Nat.ltb (S (l_g s)) ncols = true) as ->. { apply Nat.ltb_lt. nia. }
    match goal with |- context [place_all _ _ _ ?s2 (S i) l] => destruct (IH s2 (S i)) with (n := S n) as (s' & E1 & E2 & E3 & E4); [assumption| |assumption|exact Hq'|lia|exact Hfr| | |assumption| |] end.
    + cbn. lia.
    + cbn [l_g l_r]. nia.
    + lia.
    + intros k Hk Hkt. cbn [l_r]. assert (Hc : k = i \/ k < i) by lia. destruct Hc as [->|Hc]; [lia|]. destruct (HE k ltac:(lia) Hkt) as [-> H1]. unfold brk in EB. cbn in EB. apply Nat.leb_le in EB. lia.
    + exists s'. rewrite E1. split; auto. split; [lia|]. split; auto. intros d Hd. eapply Hcv; eauto.
  - assert (Hrow : l_r s + 1 < maxr /\ (q = true -> l_r s + 4 <= maxr)). { unfold brk in EB. apply orb_false_iff in EB as [E1 E2]. apply Nat.leb_gt in E2. split; [lia|]. intros ->. cbn in E1. apply Nat.ltb_ge in E1. lia. }
    match goal with |- context [place_all _ _ _ ?s2 (S i) l] => destruct (IH s2 (S i)) with (n := S n) as (s' & E1 & E2 & E3 & E4); [assumption| |assumption|exact Hq'|lia|exact Hfr| | |assumption| |] end.
    + cbn. lia.
    + cbn [l_g l_r]. lia.
    + lia.
    + intros k Hk Hkt. cbn [l_r]. assert (Hc : k = i \/ k < i) by lia. destruct Hc as [->|Hc].
      * rewrite Hqi in Hkt. injection Hkt as ->. lia.
      * specialize (Hg k ltac:(lia) Hkt). lia.
    + exists s'. rewrite E1. split; auto. split; [lia|]. split; auto. intros d Hd. eapply Hcv; eauto.
Qed.

Definition tag_of (c : vctx) := (vc_tid c, vc_cid c).
Lemma place_ctxs_total ncols maxr cs : forall s n, 4 <= maxr -> l_r s < maxr ->
  NoDup (map tag_of cs) -> (forall c k, In c cs -> find_cell (l_map s) (vcell c k) = None) ->
  (forall c, In c cs -> length (vc_sel c) = length (vc_adv c) /\ spaced (vc_sel c) /\ forall k, nth_error (vc_sel c) k = Some true -> k + 3 < length (vc_sel c)) ->
  (maxr - 3) * l_g s + l_r s <= n -> n + length (flat_map vc_adv cs) <= ncols * (maxr - 3) ->
  exists s', place_ctxs ncols maxr s cs = Some s'.
Proof.
  induction cs as [|c cs IH]; intros s n Hm Hr HD Hf HC Hn Ht; cbn [place_ctxs].
  { eauto. }
  inversion HD as [|? ? HD1 HD2]; subst. destruct (HC c ltac:(now left)) as (L1 & L2 & L3). cbn [flat_map] in Ht. rewrite app_length in Ht.
  unfold place_ctx. destruct (vc_adv c) as [|a av] eqn:EA.
  { apply IH with (n := n); auto. - intros; apply Hf; now right. - intros; apply HC; now right. }
  rewrite <- EA in *. assert (HL : 1 <= length (vc_adv c)) by (rewrite EA; cbn; lia).
  assert (Nat.ltb (l_g s) ncols = true) as -> by (apply Nat.ltb_lt; nia). rewrite L1, Nat.eqb_refl.
  assert (ES : map snd (combine (vc_adv c) (vc_sel c)) = vc_sel c).
  { clear -L1. revert L1. generalize (vc_adv c). induction (vc_sel c) as [|b l IH]; intros [|a k]; cbn; try discriminate; auto. intros H. f_equal. apply IH. lia. }
  destruct (place_all_total ncols maxr c (combine (vc_adv c) (vc_sel c)) s 0) with (n := n) as (s' & E1 & E2 & E3 & E4); auto; rewrite ?combine_length, ?L1, ?Nat.min_id in *.
  - intros k. rewrite ES. reflexivity.
  - lia.
  - intros k _. apply Hf. now left.
  - lia.
  - intros k Hk. lia.
  - rewrite E1. apply IH with (n := n + length (vc_adv c)); auto.
    + intros c' k Hc'. destruct (find_cell (l_map s') (vcell c' k)) eqn:Ef; auto. exfalso. destruct (E4 (vcell c' k)) as [H|[k' H]]; [congruence| |].
      * apply H. apply Hf. now right.
      * apply HD1. apply in_map_iff. exists c'. split; auto. unfold vcell in H. injection H as H1 H2 H3. unfold tag_of. congruence.
    + intros c' Hc'. apply HC. now right.
    + lia.
Qed.
End P.
