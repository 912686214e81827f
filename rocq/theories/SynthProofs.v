(** Proofs about the copy manager and the lookup manager (model in Synth.v). *)
From Coq Require Import ZArith Lia List Bool Permutation.
From Verif Require Import Field Spec Context ContextProofs SatCheck Layout LayoutProofs Synth.
Import ListNotations.
Local Open Scope nat_scope.

(** ** sorting *)
Lemma lexleb_refl a : lexleb a a = true.
Proof. induction a as [|x a IH]; cbn; auto. rewrite Z.eqb_refl, IH. now rewrite orb_true_r. Qed.
Lemma lexleb_total a : forall b, lexleb a b = true \/ lexleb b a = true.
Proof.
  induction a as [|x a IH]; intros [|y b]; cbn; auto. destruct (IH b) as [H|H]; rewrite H;
  destruct (Z.ltb_spec x y), (Z.ltb_spec y x), (Z.eqb_spec x y), (Z.eqb_spec y x); cbn; auto; lia.
Qed.
Lemma lexleb_trans a : forall b c, lexleb a b = true -> lexleb b c = true -> lexleb a c = true.
Proof.
  induction a as [|x a IH]; intros [|y b] [|z c]; cbn; auto; try discriminate. intros H1 H2.
  apply orb_prop in H1. apply orb_prop in H2. apply orb_true_iff.
  destruct H1 as [H1|H1], H2 as [H2|H2]; rewrite ?andb_true_iff, ?Z.ltb_lt, ?Z.eqb_eq in *; try (left; lia).
  right. destruct H1 as [-> H1], H2 as [-> H2]. split; auto. eauto.
Qed.
Lemma lexleb_antisym a : forall b, lexleb a b = true -> lexleb b a = true -> a = b.
Proof.
  induction a as [|x a IH]; intros [|y b]; cbn; auto; try discriminate. intros H1 H2.
  apply orb_prop in H1. apply orb_prop in H2. rewrite ?andb_true_iff, ?Z.ltb_lt, ?Z.eqb_eq in *.
  destruct H1 as [H1|[-> H1]], H2 as [H2|[E H2]]; try lia. f_equal. auto.
Qed.

Section Sort.
Context {A : Type} (key : A -> list Z).
Lemma insert_perm x l : Permutation (x :: l) (insert_by key x l).
Proof. induction l as [|y l IH]; cbn; auto. destruct (lexleb _ _); auto. rewrite perm_swap. auto. Qed.
Lemma sort_perm l : Permutation l (sort_by key l).
Proof. induction l as [|x l IH]; cbn; auto. rewrite <- insert_perm. auto. Qed.
Inductive srt : list A -> Prop :=
| srt_nil : srt []
| srt_cons x l : (forall y, In y l -> lexleb (key x) (key y) = true) -> srt l -> srt (x :: l).
Lemma insert_srt x l : srt l -> srt (insert_by key x l).
Proof.
  induction 1 as [|y l Hy Hs IH]; cbn; [repeat constructor; intros ? []|]. destruct (lexleb (key x) (key y)) eqn:E.
  - constructor; [|constructor; auto]. intros z [<-|Hz]; auto. eapply lexleb_trans; eauto.
  - constructor; auto. intros z Hz. apply (Permutation_in _ (Permutation_sym (insert_perm x l))) in Hz. destruct Hz as [<-|Hz]; auto.
    destruct (lexleb_total (key x) (key y)); congruence.
Qed.
Lemma sort_srt l : srt (sort_by key l).
Proof. induction l; cbn; [constructor|now apply insert_srt]. Qed.
Lemma srt_unique (inj : forall x y, key x = key y -> x = y) l : forall l', srt l -> srt l' -> Permutation l l' -> l = l'.
Proof.
  induction l as [|x l IH]; intros l' H1 H2 HP. { now apply Permutation_nil in HP. }
  destruct l' as [|y l']. { apply Permutation_sym, Permutation_nil in HP. discriminate. }
  inversion H1 as [|? ? A1 B1]; subst. inversion H2 as [|? ? A2 B2]; subst.
  assert (x = y).
  { apply inj. apply lexleb_antisym.
    - assert (In y (x :: l)) by (eapply Permutation_in; [apply Permutation_sym; eauto|now left]). destruct H as [<-|H]; [apply lexleb_refl|auto].
    - assert (In x (y :: l')) by (eapply Permutation_in; [eauto|now left]). destruct H as [<-|H]; [apply lexleb_refl|auto]. }
  subst y. f_equal. apply IH; auto. eapply Permutation_cons_inv; eauto.
Qed.
Lemma sort_unique (inj : forall x y, key x = key y -> x = y) l l' : Permutation l l' -> sort_by key l = sort_by key l'.
Proof. intros H. apply srt_unique; auto; try apply sort_srt. rewrite <- !sort_perm. auto. Qed.
Lemma sort_in l x : In x (sort_by key l) <-> In x l.
Proof. split; apply Permutation_in; [apply Permutation_sym|]; apply sort_perm. Qed.
End Sort.

Lemma mapM_spec {A B} (f : A -> option B) l r : mapM f l = Some r <-> Forall2 (fun x y => f x = Some y) l r.
Proof.
  revert r. induction l as [|x l IH]; intros r; cbn.
  - split; [intros [= <-]; constructor|inversion 1; auto].
  - split.
    + destruct (f x) as [y|] eqn:E; [|discriminate]. destruct (mapM f l) as [ys|] eqn:E2; [|discriminate]. intros [= <-]. constructor; auto. now apply IH.
    + inversion 1 as [|? y ? ys H1 H2]; subst. rewrite H1. apply IH in H2. now rewrite H2.
Qed.
Lemma mapM_some {A B} (f : A -> option B) l : (forall x, In x l -> f x <> None) -> exists r, mapM f l = Some r.
Proof.
  induction l as [|x l IH]; intros H; cbn; eauto. destruct (f x) as [y|] eqn:E; [|exfalso; apply (H x); auto; now left].
  destruct IH as (r & ->). { intros; apply H; now right. } eauto.
Qed.
Lemma Forall2_in_l {A B} (R : A -> B -> Prop) l r x : Forall2 R l r -> In x l -> exists y, In y r /\ R x y.
Proof. induction 1 as [|a b l r H _ IH]; [intros []|]. intros [<-|Hx]; [exists b; split; auto; now left|]. destruct (IH Hx) as (y & Hy & HR). exists y. split; auto. now right. Qed.
Lemma Forall2_in_r {A B} (R : A -> B -> Prop) l r y : Forall2 R l r -> In y r -> exists x, In x l /\ R x y.
Proof. induction 1 as [|a b l r H _ IH]; [intros []|]. intros [<-|Hx]; [exists a; split; auto; now left|]. destruct (IH Hx) as (x & Hy & HR). exists x. split; auto. now right. Qed.

Section P.
Context {p : positive}.
Notation Fp := (F p).

Lemma cell_key_inj a b : cell_key a = cell_key b -> a = b.
Proof. unfold cell_key. intros H. injection H as H1 H2 H3. destruct a, b; cbn in *. apply Nat2Z.inj in H1, H2, H3. congruence. Qed.
Lemma eq_key_inj a b : eq_key a = eq_key b -> a = b.
Proof.
  destruct a as [a1 a2], b as [b1 b2]. unfold eq_key, cell_key. cbn [fst snd app]. intros H. injection H as H1 H2 H3 H4 H5 H6. apply Nat2Z.inj in H1, H2, H3, H4, H5, H6.
  destruct a1, a2, b1, b2; cbn in *; congruence.
Qed.
Lemma const_key_inj (a b : Fp * cell) : const_key a = const_key b -> a = b.
Proof.
  destruct a as [a1 a2], b as [b1 b2]. unfold const_key. cbn [fst snd]. intros H. injection H as H1 H2 H3 H4. f_equal; [now apply F_eq|].
  apply Nat2Z.inj in H2, H3, H4. destruct a2, b2; cbn in *; congruence.
Qed.

Lemma find_p_app m m' c : find_p (m ++ m') c = match find_p m c with Some x => Some x | None => find_p m' c end.
Proof. unfold find_p. induction m as [|[a x] m IH]; cbn; auto. destruct (cell_eqb a c); auto. Qed.
Lemma find_p_cons a x m c : find_p ((a, x) :: m) c = if cell_eqb a c then Some x else find_p m c.
Proof. unfold find_p. cbn. destruct (cell_eqb a c); auto. Qed.
Lemma find_p_adv m c : find_p (map (fun e => (fst e, PAdv (snd e))) m) c = option_map PAdv (find_cell m c).
Proof. unfold find_p, find_cell. induction m as [|[a x] m IH]; cbn; auto. destruct (cell_eqb a c); auto. Qed.
Lemma find_p_in m c x : find_p m c = Some x -> In (c, x) m.
Proof. unfold find_p. destruct (find _ m) as [[a y]|] eqn:E; cbn; [|discriminate]. intros [= <-]. apply find_some in E as [E1 E2]. cbn in E2. apply cell_eqb_eq in E2. now subst. Qed.

Lemma find_const_app (m m' : list (Fp * pcell)) c : find_const (m ++ m') c = match find_const m c with Some x => Some x | None => find_const m' c end.
Proof. unfold find_const. induction m as [|[a x] m IH]; cbn; auto. destruct (Feqb a c); auto. Qed.
Lemma find_const_in (m : list (Fp * pcell)) c x : find_const m c = Some x -> In (c, x) m.
Proof. unfold find_const. destruct (find _ m) as [[a y]|] eqn:E; cbn; [|discriminate]. intros [= <-]. apply find_some in E as [E1 E2]. cbn in E2. apply Feqb_eq in E2. now subst. Qed.
Lemma find_const_none (m : list (Fp * pcell)) c : find_const m c = None <-> ~ In c (map fst m).
Proof.
  unfold find_const. induction m as [|[a x] m IH]; cbn; [tauto|]. destruct (Feqb a c) eqn:E; cbn.
  - apply Feqb_eq in E. split; [discriminate|]. intros H. exfalso. auto.
  - apply Feqb_neq in E. rewrite IH. tauto.
Qed.
Lemma find_const_nodup (m : list (Fp * pcell)) c x : NoDup (map fst m) -> In (c, x) m -> find_const m c = Some x.
Proof.
  unfold find_const. induction m as [|[a y] m IH]; cbn; [intros _ []|]. intros HN [H|H]; inversion HN as [|? ? H1 H2]; subst.
  - injection H as -> ->. assert (Feqb c c = true) as -> by now apply Feqb_eq. auto.
  - destruct (Feqb a c) eqn:E; [|auto]. apply Feqb_eq in E. subst. exfalso. apply H1. apply in_map_iff. exists (c, x). auto.
Qed.

(** ** constants *)
Definition fixpos (nfix k : nat) : pcell := PFix (k mod nfix) (k / nfix).
Lemma assign_consts_spec nfix rows (l : list (Fp * cell)) : forall acc col off r, assign_consts nfix rows l acc col off = Some r ->
  (0 < nfix -> col < nfix) -> (0 < nfix -> length acc = off * nfix + col) -> (0 < nfix -> map snd acc = map (fixpos nfix) (seq 0 (length acc))) ->
  (forall x, In x acc -> 0 < nfix) -> (0 < nfix -> length acc <= nfix * rows) -> NoDup (map fst acc) ->
  (exists acc', r = acc ++ acc') /\ (0 < nfix -> map snd r = map (fixpos nfix) (seq 0 (length r))) /\ NoDup (map fst r) /\
  (forall x, In x r -> 0 < nfix) /\ length r <= nfix * rows /\ (forall c, In c (map fst r) <-> In c (map fst acc) \/ In c (map fst l)).
Proof.
  induction l as [|[c d] l IH]; intros acc col off r E Hcol Hlen Hpos Hn Hb HN; cbn [assign_consts] in E.
  { injection E as <-. split; [exists []; now rewrite app_nil_r|]. split; [auto|]. split; [auto|]. split; [auto|]. split; [|cbn; tauto].
    destruct nfix; [destruct acc as [|e acc]; cbn; [lia|specialize (Hn e ltac:(now left)); lia]|apply Hb; lia]. }
  destruct (find_const acc c) as [x|] eqn:EF.
  - destruct (IH _ _ _ _ E Hcol Hlen Hpos Hn Hb HN) as (H1 & H2 & H3 & H4 & H5 & H6). split; [auto|]. split; [auto|]. split; [auto|]. split; [auto|]. split; [auto|]. intros c'. rewrite H6. cbn. apply find_const_in in EF. apply (in_map fst) in EF. cbn in EF. intuition congruence.
  - apply find_const_none in EF. destruct (Nat.ltb_spec col nfix); [|discriminate]. destruct (Nat.ltb_spec off rows); [|discriminate]. cbn [andb] in E.
    assert (Hn0 : 0 < nfix) by lia. specialize (Hlen Hn0). specialize (Hpos Hn0). specialize (Hb Hn0).
    assert (HP : map snd (acc ++ [(c, PFix col off)]) = map (fixpos nfix) (seq 0 (length (acc ++ [(c, PFix col off)])))).
    { rewrite map_app, Hpos, app_length, seq_app, map_app. cbn. f_equal. f_equal. unfold fixpos. rewrite Hlen. f_equal.
      - rewrite Nat.add_comm, Nat.mod_add by lia. symmetry. now apply Nat.mod_small.
      - rewrite Nat.add_comm, Nat.div_add by lia. rewrite Nat.div_small by lia. lia. }
    assert (HN' : NoDup (map fst (acc ++ [(c, PFix col off)]))).
    { rewrite map_app. cbn. eapply Permutation_NoDup; [apply Permutation_cons_append|constructor; auto]. }
    assert (HB : length (acc ++ [(c, PFix col off)]) <= nfix * rows) by (rewrite app_length; cbn; nia).
    assert (K : exists col' off', assign_consts nfix rows l (acc ++ [(c, PFix col off)]) col' off' = Some r /\ col' < nfix /\ length (acc ++ [(c, PFix col off)]) = off' * nfix + col').
    { rewrite app_length. cbn [length]. destruct (Nat.leb_spec nfix (S col)); [exists 0, (S off)|exists (S col), off]; repeat split; auto; nia. }
    destruct K as (col' & off' & E' & K1 & K2). destruct (IH _ _ _ _ E' ltac:(auto) ltac:(auto) ltac:(auto) ltac:(auto) ltac:(auto) HN') as ((acc' & ->) & H2 & H3 & H4 & H5 & H6).
    split; [eexists; rewrite <- app_assoc; reflexivity|]. split; [auto|]. split; [auto|]. split; [auto|]. split; [auto|]. intros c'. rewrite H6, map_app, in_app_iff. cbn. tauto.
Qed.
Lemma assign_consts_spec0 nfix rows (l : list (Fp * cell)) r : assign_consts nfix rows l [] 0 0 = Some r ->
  (0 < nfix -> map snd r = map (fixpos nfix) (seq 0 (length r))) /\ NoDup (map fst r) /\ (forall x, In x r -> 0 < nfix) /\ length r <= nfix * rows /\ (forall c, In c (map fst r) <-> In c (map fst l)).
Proof.
  intros E. apply assign_consts_spec in E as (_ & H2 & H3 & H4 & H5 & H6); cbn; auto; try lia; try tauto; [|constructor].
  split; [auto|]. split; [auto|]. split; [auto|]. split; [auto|]. intros c. rewrite H6. cbn. tauto.
Qed.
Lemma seq_fixpos_nodup nfix n : 0 < nfix -> NoDup (map (fixpos nfix) (seq 0 n)).
Proof.
  intros Hn. apply FinFun.Injective_map_NoDup; [|apply seq_NoDup]. intros a b H. unfold fixpos in H. injection H as H1 H2.
  rewrite (Nat.div_mod a nfix), (Nat.div_mod b nfix) by lia. congruence.
Qed.
(** running out of fixed cells is the only panic *)
Lemma assign_consts_total nfix rows (l : list (Fp * cell)) : forall acc col off, col < nfix -> length acc = off * nfix + col ->
  (forall n, NoDup n -> (forall c, In c n -> In c (map fst acc) \/ In c (map fst l)) -> length n <= nfix * rows) -> NoDup (map fst acc) ->
  exists r, assign_consts nfix rows l acc col off = Some r.
Proof.
  induction l as [|[c d] l IH]; intros acc col off Hcol Hlen HB HN; cbn [assign_consts]; eauto.
  destruct (find_const acc c) as [x|] eqn:EF.
  - apply IH; auto. intros n Hn Hin. apply HB; auto. intros c' Hc'. destruct (Hin c' Hc'); cbn; auto.
  - apply find_const_none in EF. assert (HN' : NoDup (map fst (acc ++ [(c, PFix col off)]))) by (rewrite map_app; cbn; eapply Permutation_NoDup; [apply Permutation_cons_append|constructor; auto]).
    assert (length (map fst (acc ++ [(c, PFix col off)])) <= nfix * rows). { apply HB; auto. intros c'. rewrite map_app, in_app_iff. cbn. tauto. }
    rewrite map_length, app_length in H. cbn in H. assert (Nat.ltb col nfix = true) as -> by now apply Nat.ltb_lt. assert (Nat.ltb off rows = true) as -> by (apply Nat.ltb_lt; nia). cbn [andb].
    assert (HB' : forall n, NoDup n -> (forall c0, In c0 n -> In c0 (map fst (acc ++ [(c, PFix col off)])) \/ In c0 (map fst l)) -> length n <= nfix * rows).
    { intros n Hn Hin. apply HB; auto. intros c' Hc'. specialize (Hin c' Hc'). rewrite map_app, in_app_iff in Hin. cbn in *. tauto. }
    destruct (Nat.leb_spec nfix (S col)); apply IH; auto; try lia; rewrite app_length; cbn; nia.
Qed.

(** ** the copy manager *)
Section CM.
Variables (nfix rows : nat) (eqs : list (cell * cell)) (consts : list (Fp * cell)) (m : list (cell * pcell)).
Variables (fixed : list (Fp * pcell)) (cp : list (pcell * pcell)).
Hypothesis HR : copy_assign_raw nfix rows eqs consts m = Some (fixed, cp).
Lemma copy_fixed : NoDup (map fst fixed) /\ NoDup (map snd fixed) /\ (forall c, In c (map fst fixed) <-> exists d, In (c, d) consts) /\
  (forall c x, In (c, x) fixed -> exists col row, x = PFix col row /\ col < nfix /\ row < rows).
Proof.
  unfold copy_assign_raw in HR. destruct (assign_consts nfix rows (sort_by const_key consts) [] 0 0) as [fx|] eqn:E; [|discriminate].
  destruct (mapM _ (sort_by eq_key eqs)); [|discriminate]. destruct (mapM _ (sort_by const_key consts)); [|discriminate]. injection HR as <- _.
  apply assign_consts_spec0 in E as (H2 & H3 & H4 & H5 & H6).
  split; auto. split; [|split].
  - destruct fx as [|e fx]; [constructor|]. assert (0 < nfix) by (eapply H4; now left). rewrite H2 by auto. now apply seq_fixpos_nodup.
  - intros c. rewrite H6. rewrite in_map_iff. split.
    + intros ([c' d] & <- & H). apply sort_in in H. eauto.
    + intros (d & H). exists (c, d). rewrite sort_in. auto.
  - intros c x H. assert (Hn : 0 < nfix) by (eapply H4; eauto). specialize (H2 Hn). apply (in_map snd) in H. cbn in H. rewrite H2 in H. apply in_map_iff in H as (k & <- & Hk). apply in_seq in Hk.
    exists (k mod nfix), (k / nfix). split; auto. split; [apply Nat.mod_upper_bound; lia|]. apply Nat.div_lt_upper_bound; lia.
Qed.
Lemma copy_eqs a b : In (a, b) eqs -> exists x y, find_p m a = Some x /\ find_p m b = Some y /\ In (x, y) cp.
Proof.
  unfold copy_assign_raw in HR. destruct (assign_consts nfix rows (sort_by const_key consts) [] 0 0) as [fx|] eqn:E; [|discriminate].
  destruct (mapM _ (sort_by eq_key eqs)) as [c1|] eqn:E1; [|discriminate]. destruct (mapM _ (sort_by const_key consts)) as [c2|] eqn:E2; [|discriminate]. injection HR as _ <-.
  intros H. apply mapM_spec in E1. apply (sort_in eq_key) in H. destruct (Forall2_in_l _ _ _ _ E1 H) as ([x y] & Hy & Hf). cbn in Hf.
  destruct (find_p m a); [|discriminate]. destruct (find_p m b); [|discriminate]. injection Hf as -> ->. exists x, y. rewrite in_app_iff. auto.
Qed.
Lemma copy_consts c a : In (c, a) consts -> exists x y, In (c, x) fixed /\ find_p m a = Some y /\ In (x, y) cp.
Proof.
  unfold copy_assign_raw in HR. destruct (assign_consts nfix rows (sort_by const_key consts) [] 0 0) as [fx|] eqn:E; [|discriminate].
  destruct (mapM _ (sort_by eq_key eqs)) as [c1|] eqn:E1; [|discriminate]. destruct (mapM _ (sort_by const_key consts)) as [c2|] eqn:E2; [|discriminate]. injection HR as <- <-.
  intros H. apply mapM_spec in E2. apply (sort_in const_key) in H. destruct (Forall2_in_l _ _ _ _ E2 H) as ([x y] & Hy & Hf). cbn in Hf.
  destruct (find_const fx c) eqn:EF; [|discriminate]. destruct (find_p m a); [|discriminate]. injection Hf as -> ->. exists x, y. rewrite in_app_iff. apply find_const_in in EF. auto.
Qed.
Lemma copy_only x y : In (x, y) cp -> (exists a b, In (a, b) eqs /\ find_p m a = Some x /\ find_p m b = Some y) \/ (exists c a, In (c, a) consts /\ In (c, x) fixed /\ find_p m a = Some y).
Proof.
  unfold copy_assign_raw in HR. destruct (assign_consts nfix rows (sort_by const_key consts) [] 0 0) as [fx|] eqn:E; [|discriminate].
  destruct (mapM _ (sort_by eq_key eqs)) as [c1|] eqn:E1; [|discriminate]. destruct (mapM _ (sort_by const_key consts)) as [c2|] eqn:E2; [|discriminate]. injection HR as <- <-.
  apply mapM_spec in E1. apply mapM_spec in E2. intros H. apply in_app_or in H as [H|H].
  - left. destruct (Forall2_in_r _ _ _ _ E1 H) as ([a b] & Ha & Hf). cbn in Hf. apply sort_in in Ha.
    destruct (find_p m a) eqn:Fa; [|discriminate]. destruct (find_p m b) eqn:Fb; [|discriminate]. injection Hf as -> ->. exists a, b. auto.
  - right. destruct (Forall2_in_r _ _ _ _ E2 H) as ([c a] & Ha & Hf). cbn in Hf. apply sort_in in Ha.
    destruct (find_const fx c) eqn:Fa; [|discriminate]. destruct (find_p m a) eqn:Fb; [|discriminate]. injection Hf as -> ->. exists c, a. apply find_const_in in Fa. auto.
Qed.
End CM.
Lemma copy_perm nfix rows eqs eqs' (consts consts' : list (Fp * cell)) m : Permutation eqs eqs' -> Permutation consts consts' ->
  copy_assign_raw nfix rows eqs consts m = copy_assign_raw nfix rows eqs' consts' m.
Proof. intros H1 H2. unfold copy_assign_raw. rewrite (sort_unique eq_key eq_key_inj _ _ H1), (sort_unique const_key const_key_inj _ _ H2). reflexivity. Qed.

(** number of distinct constants *)
Lemma dedup_in (l : list Fp) x : In x (dedup l) <-> In x l.
Proof.
  induction l as [|a l IH]; [tauto|]. cbn [dedup]. destruct l as [|b l]; [tauto|]. destruct (Feqb a b) eqn:E; [|cbn [In] in *; rewrite IH; tauto].
  apply Feqb_eq in E. subst. rewrite IH. cbn. tauto.
Qed.
Lemma dedup_nodup (l : list Fp) : srt (fun x => [val x]) l -> NoDup (dedup l).
Proof.
  induction l as [|a l IH]; intros H; cbn [dedup]; [constructor|]. inversion H as [|? ? H1 H2]; subst. destruct l as [|b l]; [repeat constructor; auto|].
  destruct (Feqb a b) eqn:E; auto. constructor; auto. intros Hin. pose proof (proj1 (dedup_in _ _) Hin) as Hin2. clear Hin. rename Hin2 into Hin. apply Feqb_neq in E. apply E.
  assert (Hb : lexleb [val a] [val b] = true) by (apply H1; now left). assert (Ha : lexleb [val b] [val a] = true).
  { destruct Hin as [->|Hin]; [apply lexleb_refl|]. inversion H2 as [|? ? H3 H4]; subst. auto. }
  pose proof (lexleb_antisym _ _ Hb Ha) as HE. injection HE as HE. now apply F_eq.
Qed.
Lemma num_distinct_spec (consts : list (Fp * cell)) : exists n, NoDup n /\ length n = num_distinct_constants consts /\ forall c, In c n <-> exists d, In (c, d) consts.
Proof.
  exists (dedup (sort_by (fun x => [val x]) (map fst consts))). split; [apply dedup_nodup, sort_srt|]. split; auto.
  intros c. rewrite dedup_in, sort_in, in_map_iff. split; [intros ([c' d] & <- & H); eauto|intros (d & H); exists (c, d); auto].
Qed.
Lemma copy_num_distinct nfix rows eqs (consts : list (Fp * cell)) m fixed cp : copy_assign_raw nfix rows eqs consts m = Some (fixed, cp) -> length fixed = num_distinct_constants consts.
Proof.
  intros H. apply copy_fixed in H as (H1 & _ & H2 & _). destruct (num_distinct_spec consts) as (n & N1 & N2 & N3). rewrite <- N2, <- (map_length fst fixed).
  apply Nat.le_antisymm; apply NoDup_incl_length; auto; intros c Hc; [apply N3, H2|apply H2, N3]; auto.
Qed.
Lemma copy_total nfix rows eqs (consts : list (Fp * cell)) m : num_distinct_constants consts <= nfix * rows ->
  (forall a b, In (a, b) eqs -> find_p m a <> None /\ find_p m b <> None) -> (forall c a, In (c, a) consts -> find_p m a <> None) ->
  exists fixed cp, copy_assign_raw nfix rows eqs consts m = Some (fixed, cp).
Proof.
  intros HN HE HC. unfold copy_assign_raw.
  assert (HA : exists fx, assign_consts nfix rows (sort_by const_key consts) [] 0 0 = Some fx).
  { destruct (num_distinct_spec consts) as (n & N1 & N2 & N3). rewrite <- N2 in HN.
    destruct (Nat.eq_dec nfix 0) as [->|Hz].
    - destruct consts as [|[c d] consts]; [cbn; eauto|]. destruct n as [|x n]; [|cbn in HN; lia]. exfalso. apply (N3 c). exists d. now left.
    - apply assign_consts_total; cbn; try lia; [|constructor]. intros k Hk Hin. transitivity (length n); auto. apply NoDup_incl_length; auto.
      intros c Hc. destruct (Hin c Hc) as [[]|H]. apply in_map_iff in H as ([c' d] & <- & H). apply sort_in in H. apply N3. eauto. }
  destruct HA as (fx & HA). rewrite HA.
  destruct (mapM_some (fun e => match find_p m (fst e), find_p m (snd e) with Some a, Some b => Some (a, b) | _, _ => None end) (sort_by eq_key eqs)) as (c1 & ->).
  { intros [a b] H. apply sort_in in H. destruct (HE a b H). cbn. destruct (find_p m a), (find_p m b); congruence. }
  destruct (mapM_some (fun e => match find_const fx (fst e), find_p m (snd e) with Some a, Some b => Some (a, b) | _, _ => None end) (sort_by const_key consts)) as (c2 & ->); [|eauto].
  intros [c a] H. pose proof H as H'. apply sort_in in H. specialize (HC c a H). cbn. destruct (find_p m a); [|congruence].
  destruct (find_const fx c) eqn:EF; [congruence|]. apply find_const_none in EF. exfalso. apply EF.
  apply assign_consts_spec0 in HA as (_ & _ & _ & _ & H6). rewrite H6. apply in_map_iff. exists (c, a). auto.
Qed.
End P.
