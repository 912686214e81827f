(** Proofs about the lookup manager: order of the buckets, placement of the tuples. *)
From Coq Require Import ZArith Lia List Bool Permutation.
From Verif Require Import Field Spec Context ContextProofs SatCheck Layout LayoutProofs Synth SynthProofs.
Import ListNotations.
Local Open Scope nat_scope.

(** ** buckets *)
Lemma tag_eqb_eq a b : tag_eqb a b = true <-> a = b.
Proof. unfold tag_eqb. rewrite andb_true_iff, !Nat.eqb_eq. destruct a, b; cbn. split; [intros [-> ->]; auto|intros [= -> ->]; auto]. Qed.
Lemma tag_key_inj a b : tag_key a = tag_key b -> a = b.
Proof. unfold tag_key. intros H. injection H as H1 H2. apply Nat2Z.inj in H1, H2. destruct a, b; cbn in *; congruence. Qed.
Section B.
Context {A : Type}.
Implicit Types b : list (tag * list A).
Inductive bsorted : list (tag * list A) -> Prop :=
| bs_nil : bsorted []
| bs_cons t l b : l <> [] -> (forall u, In u (map fst b) -> u <> t /\ lexleb (tag_key t) (tag_key u) = true) -> bsorted b -> bsorted ((t, l) :: b).
Definition get_tag (t : tag) b : list A := flat_map (fun e => if tag_eqb t (fst e) then snd e else []) b.
Lemma get_tag_cons t u l b : get_tag t ((u, l) :: b) = (if tag_eqb t u then l else []) ++ get_tag t b.
Proof. reflexivity. Qed.
Lemma get_tag_notin t b : ~ In t (map fst b) -> get_tag t b = [].
Proof.
  induction b as [|[u l] b IH]; cbn; auto. intros H. destruct (tag_eqb t u) eqn:E; [apply tag_eqb_eq in E; subst; tauto|]. cbn. apply IH. tauto.
Qed.
Lemma bsorted_notin t l b : bsorted ((t, l) :: b) -> ~ In t (map fst b).
Proof. inversion 1 as [|? ? ? ? H1 H2]; subst. intros Hi. destruct (H1 t Hi). auto. Qed.
Lemma get_tag_head t l b : bsorted ((t, l) :: b) -> get_tag t ((t, l) :: b) = l.
Proof. intros H. rewrite get_tag_cons. assert (tag_eqb t t = true) as -> by now apply tag_eqb_eq. rewrite get_tag_notin, app_nil_r; auto. eapply bsorted_notin; eauto. Qed.
Lemma get_tag_tail t u l b : t <> u -> get_tag t ((u, l) :: b) = get_tag t b.
Proof. intros H. rewrite get_tag_cons. destruct (tag_eqb t u) eqn:E; [apply tag_eqb_eq in E; tauto|]. auto. Qed.
Lemma get_tag_in t b : bsorted b -> In t (map fst b) <-> get_tag t b <> [].
Proof.
  intros H. split.
  - induction H as [|u l b Hl Hu Hs IH]; cbn [map fst]; [intros []|]. intros [<-|Hi].
    + rewrite get_tag_head; auto. now constructor.
    + rewrite get_tag_tail; auto. destruct (Hu t Hi); auto.
  - intros Hn. destruct (in_dec (fun a b : tag => ltac:(repeat decide equality)) t (map fst b)); auto. exfalso. apply Hn. now apply get_tag_notin.
Qed.
Lemma add_keys t x b u : In u (map fst (add_lookup t x b)) <-> u = t \/ In u (map fst b).
Proof.
  induction b as [|[v l] b IH]; cbn [add_lookup map fst In]; [intuition congruence|]. destruct (tag_eqb t v) eqn:E; [apply tag_eqb_eq in E; subst; cbn; intuition congruence|].
  destruct (lexleb (tag_key t) (tag_key v)); cbn [map fst In]; [split; intros HH; decompose [or] HH; auto|]. rewrite IH. split; intros HH; decompose [or] HH; auto.
Qed.
Lemma add_bsorted t (x : A) b : bsorted b -> bsorted (add_lookup t x b).
Proof.
  induction 1 as [|u l b Hl Hu Hs IH]; cbn [add_lookup]; [constructor; [congruence|intros ? []|constructor]|]. destruct (tag_eqb t u) eqn:E.
  - constructor; auto. destruct l; discriminate.
  - assert (Hne : t <> u) by (intros ->; assert (tag_eqb u u = true) by (now apply tag_eqb_eq); congruence).
    destruct (lexleb (tag_key t) (tag_key u)) eqn:El.
    + constructor; [congruence| |constructor; auto]. intros v [<-|Hv]; [auto|]. destruct (Hu v Hv) as [H1 H2]. split; [|eapply lexleb_trans; eauto].
      intros ->. apply H1. apply tag_key_inj. now apply lexleb_antisym.
    + constructor; auto. intros v Hv. apply add_keys in Hv as [->|Hv]; auto. split; auto. destruct (lexleb_total (tag_key t) (tag_key u)); congruence.
Qed.
Lemma add_get t x b u : bsorted b -> get_tag u (add_lookup t x b) = get_tag u b ++ (if tag_eqb u t then [x] else []).
Proof.
  intros HS. pose proof (add_bsorted t x b HS) as HS'. revert HS HS'. induction b as [|[v l] b IH]; intros HS HS'; cbn [add_lookup] in *.
  - cbn. destruct (tag_eqb u t); auto.
  - destruct (tag_eqb t v) eqn:E.
    + apply tag_eqb_eq in E. subst v. destruct (tag_eqb u t) eqn:E2.
      * apply tag_eqb_eq in E2. subst u. rewrite !get_tag_head; auto.
      * rewrite app_nil_r. assert (u <> t) by (intros ->; assert (tag_eqb t t = true) by (now apply tag_eqb_eq); congruence). rewrite !get_tag_tail; auto.
    + assert (Hne : t <> v) by (intros ->; assert (tag_eqb v v = true) by (now apply tag_eqb_eq); congruence). destruct (lexleb (tag_key t) (tag_key v)) eqn:El.
      * destruct (tag_eqb u t) eqn:E2.
        -- apply tag_eqb_eq in E2. subst u. rewrite get_tag_head by auto. rewrite (get_tag_notin t ((v, l) :: b)); auto. cbn [map fst].
           eapply bsorted_notin in HS'. exact HS'.
        -- rewrite app_nil_r, get_tag_tail; auto. intros ->. assert (tag_eqb t t = true) by (now apply tag_eqb_eq). congruence.
      * inversion HS; subst. destruct (tag_eqb u v) eqn:E3.
        -- apply tag_eqb_eq in E3. subst u. rewrite !get_tag_head by auto. destruct (tag_eqb v t) eqn:E4; [apply tag_eqb_eq in E4; congruence|now rewrite app_nil_r].
        -- assert (u <> v) by (intros ->; assert (tag_eqb v v = true) by (now apply tag_eqb_eq); congruence). rewrite !get_tag_tail by auto. apply IH; auto. now apply add_bsorted.
Qed.
Lemma bsorted_unique b : forall b', bsorted b -> bsorted b' -> (forall t, get_tag t b = get_tag t b') -> b = b'.
Proof.
  assert (W : forall t l b b', bsorted ((t, l) :: b) -> bsorted b' -> (forall u, get_tag u ((t, l) :: b) = get_tag u b') ->
     (forall u l2 b2, b' = (u, l2) :: b2 -> lexleb (tag_key t) (tag_key u) = true) -> exists b2, b' = (t, l) :: b2).
  { intros t l b0 b' H1 H2 HG HL. assert (Hin : In t (map fst b')). { apply get_tag_in; auto. rewrite <- HG, get_tag_head by auto. inversion H1; auto. }
    destruct b' as [|[u l2] b2]; [destruct Hin|]. assert (u = t).
    { destruct Hin as [Hin|Hin]; auto. inversion H2 as [|? ? ? ? Hu]; subst. destruct (Hu t Hin) as [_ HH]. specialize (HL u l2 b2 eq_refl). apply tag_key_inj. now apply lexleb_antisym. }
    subst u. exists b2. f_equal. f_equal. specialize (HG t). rewrite !get_tag_head in HG by auto. auto. }
  induction b as [|[t l] b IH]; intros b' H1 H2 HG.
  - destruct b' as [|[u l2] b2]; auto. specialize (HG u). rewrite get_tag_head in HG by auto. cbn in HG. inversion H2; subst. congruence.
  - destruct b' as [|[u l2] b2]. { specialize (HG t). rewrite get_tag_head in HG by auto. cbn in HG. inversion H1; subst. congruence. }
    assert (E : t = u /\ l = l2).
    { destruct (lexleb_total (tag_key t) (tag_key u)) as [HL|HL].
      - destruct (W t l b ((u, l2) :: b2) H1 H2 HG) as (b3 & E); [intros ? ? ? [= <- <- <-]; auto|]. injection E as -> -> _. auto.
      - destruct (W u l2 b2 ((t, l) :: b) H2 H1 (fun x => eq_sym (HG x))) as (b3 & E); [intros ? ? ? [= <- <- <-]; auto|]. injection E as -> -> _. auto. }
    destruct E as [<- <-]. f_equal. inversion H1; subst. inversion H2; subst. apply IH; auto. intros x. specialize (HG x). destruct (in_dec (fun a b : tag => ltac:(repeat decide equality)) x [t]) as [Hx|Hx].
    + destruct Hx as [<-|[]]. rewrite !get_tag_notin; auto; eapply bsorted_notin; eauto.
    + rewrite !get_tag_tail in HG; auto; intros ->; apply Hx; now left.
Qed.
Definition of_tag (t : tag) (calls : list (tag * A)) : list A := map snd (filter (fun e => tag_eqb t (fst e)) calls).
Lemma buckets_fold calls : forall b, bsorted b -> bsorted (fold_left (fun b e => add_lookup (fst e) (snd e) b) calls b) /\
  forall t, get_tag t (fold_left (fun b e => add_lookup (fst e) (snd e) b) calls b) = get_tag t b ++ of_tag t calls.
Proof.
  induction calls as [|[t x] calls IH]; intros b Hb; cbn [fold_left fst snd].
  - split; auto. intros t. unfold of_tag. cbn. now rewrite app_nil_r.
  - destruct (IH (add_lookup t x b) (add_bsorted t x b Hb)) as [H1 H2]. split; auto. intros u. rewrite H2, add_get by auto. unfold of_tag. cbn [filter fst]. destruct (tag_eqb u t); cbn [map snd]; now rewrite <- app_assoc.
Qed.
Lemma buckets_spec (calls : list (tag * A)) : bsorted (buckets calls) /\ forall t, get_tag t (buckets calls) = of_tag t calls.
Proof. unfold buckets. destruct (buckets_fold calls [] bs_nil). auto. Qed.
(** the iteration order depends only on the per-tag order of the calls *)
Lemma in_order_unique (c1 c2 : list (tag * A)) : (forall t, of_tag t c1 = of_tag t c2) -> in_order c1 = in_order c2.
Proof.
  intros H. unfold in_order. f_equal. destruct (buckets_spec c1) as [A1 B1], (buckets_spec c2) as [A2 B2]. apply bsorted_unique; auto. intros t. now rewrite B1, B2.
Qed.
Lemma add_perm t (x : A) b : Permutation (flat_map snd (add_lookup t x b)) (x :: flat_map snd b).
Proof.
  induction b as [|[u l] b IH]; cbn [add_lookup flat_map snd]; auto. destruct (tag_eqb t u); cbn [flat_map snd].
  - rewrite <- app_assoc. apply Permutation_sym, Permutation_middle.
  - destruct (lexleb (tag_key t) (tag_key u)); cbn [flat_map snd]; auto. rewrite IH. apply Permutation_sym, Permutation_middle.
Qed.
Lemma in_order_perm (calls : list (tag * A)) : Permutation (in_order calls) (map snd calls).
Proof.
  unfold in_order, buckets. assert (G : forall calls b, Permutation (flat_map snd (fold_left (fun b e => add_lookup (fst e) (snd e) b) calls b)) (flat_map snd b ++ map snd calls)).
  { clear. induction calls as [|[t x] calls IH]; intros b; cbn; [now rewrite app_nil_r|]. rewrite IH, add_perm. cbn. rewrite <- Permutation_middle. auto. }
  apply (G calls []).
Qed.
End B.

(** ** interleavings of several threads' logs *)
Inductive interleaving {A} : list (list A) -> list A -> Prop :=
| il_nil ls : Forall (fun t => t = []) ls -> interleaving ls []
| il_step l1 x t l2 l : interleaving (l1 ++ t :: l2) l -> interleaving (l1 ++ (x :: t) :: l2) (x :: l).
Lemma interleaving_perm {A} (ls : list (list A)) l : interleaving ls l -> Permutation (concat ls) l.
Proof.
  induction 1 as [ls H|l1 x t l2 l H IH].
  - induction H as [|t ls -> _ IH]; auto.
  - rewrite <- IH, !concat_app. cbn. rewrite <- Permutation_middle. auto.
Qed.
Lemma interleaving_tags {A} (ls : list (list (tag * A))) l : interleaving ls l ->
  (forall i j ti tj t x y, nth_error ls i = Some ti -> nth_error ls j = Some tj -> In (t, x) ti -> In (t, y) tj -> i = j) ->
  forall t, of_tag t l = of_tag t (concat ls).
Proof.
  induction 1 as [ls H|l1 [t x] th l2 l H IH]; intros HD u.
  - assert (concat ls = []) as ->; auto. induction H as [|t ls -> _ IH]; auto. cbn. apply IH. intros i j ti tj t x y H1 H2 H3 H4. specialize (HD (S i) (S j) ti tj t x y H1 H2 H3 H4). lia.
  - assert (HN1 : forall i y, nth_error l1 i = Some y -> nth_error (l1 ++ ((t, x) :: th) :: l2) i = Some y). { intros i y Hi. rewrite nth_error_app1; auto. apply nth_error_Some. congruence. }
    assert (HM : nth_error (l1 ++ ((t, x) :: th) :: l2) (length l1) = Some ((t, x) :: th)) by (rewrite nth_error_app2, Nat.sub_diag; auto).
    assert (IH' : forall u, of_tag u l = of_tag u (concat (l1 ++ th :: l2))).
    { apply IH. intros i j ti tj v y z H1 H2 H3 H4.
      assert (G : forall i ti v y, nth_error (l1 ++ th :: l2) i = Some ti -> In (v, y) ti -> exists ti', nth_error (l1 ++ ((t, x) :: th) :: l2) i = Some ti' /\ In (v, y) ti').
      { clear. intros i ti v y Hi Hv. destruct (Nat.lt_total i (length l1)) as [Hl|[->|Hl]].
        - rewrite nth_error_app1 in * by auto. eauto.
        - rewrite nth_error_app2, Nat.sub_diag in * by auto. cbn in *. injection Hi as ->. eexists. split; eauto. now right.
        - rewrite nth_error_app2 in * by lia. destruct (i - length l1) as [|k] eqn:E; [lia|]. cbn in *. eauto. }
      destruct (G i ti v y H1 H3) as (ti' & G1 & G2), (G j tj v z H2 H4) as (tj' & G3 & G4). eapply HD; eauto. }
    unfold of_tag in *. cbn [filter fst]. rewrite !concat_app. cbn [concat app]. rewrite !filter_app. cbn [filter fst].
    specialize (IH' u). rewrite concat_app in IH'. cbn [concat] in IH'. rewrite !filter_app in IH'. cbn [filter fst]. destruct (tag_eqb u t) eqn:E.
    + apply tag_eqb_eq in E. subst u.
      assert (EN : filter (fun e => tag_eqb t (fst e)) (concat l1) = []).
      { destruct (filter (fun e => tag_eqb t (fst e)) (concat l1)) as [|[v y] r] eqn:Ef; auto. exfalso. assert (Hy : In (v, y) (filter (fun e => tag_eqb t (fst e)) (concat l1))) by (rewrite Ef; now left).
        apply filter_In in Hy as [Hy1 Hy2]. cbn in Hy2. apply tag_eqb_eq in Hy2. subst v. apply in_concat in Hy1 as (ti & Ht & Hy). apply In_nth_error in Ht as (i & Hi).
        specialize (HD i (length l1) ti _ t y x (HN1 i ti Hi) HM Hy ltac:(now left)). assert (i < length l1) by (apply nth_error_Some; congruence). lia. }
      rewrite EN in *. cbn [app map snd] in *. f_equal. rewrite ?filter_app. exact IH'.
    + rewrite ?filter_app. exact IH'.
Qed.

(** ** placement of lookup tuples *)
Section L.
Context {p : positive}.
Notation Fp := (F p).
Implicit Types m : list (cell * pcell).
Fixpoint lk_idx (n usable s : nat) (l : list (list (AV p))) m : option (list (pcell * Assigned p) * list (pcell * pcell) * list (cell * pcell)) :=
  match l with
  | [] => Some ([], [], m)
  | t :: l =>
      if Nat.ltb (s / n) usable then
        match lk_tuple (s mod n) 0 (s / n) t m with
        | None => None
        | Some (w, cp, m1) => match lk_idx n usable (S s) l m1 with
                              | None => None
                              | Some (w', cp', m2) => Some (w ++ w', cp ++ cp', m2)
                              end
        end
      else None
  end.
Lemma div_mod_at n col off : col < n -> (off * n + col) mod n = col /\ (off * n + col) / n = off.
Proof.
  intros H. split.
  - rewrite Nat.add_comm, Nat.mod_add by lia. now apply Nat.mod_small.
  - rewrite Nat.add_comm, Nat.div_add by lia. rewrite Nat.div_small by lia. lia.
Qed.
Lemma lk_loop_idx n usable l : 0 < n -> forall col off m, col <= n -> lk_loop n usable col off l m = lk_idx n usable (off * n + col) l m.
Proof.
  intros Hn. induction l as [|t l IH]; intros col off m Hc; cbn [lk_loop lk_idx]; auto.
  destruct (Nat.leb_spec n col).
  - replace col with n by lia. replace (off * n + n) with (S off * n + 0) by lia. destruct (div_mod_at n 0 (S off) Hn) as [-> ->].
    assert (Nat.ltb 0 n = true) as -> by now apply Nat.ltb_lt. cbn [andb]. destruct (Nat.ltb (S off) usable); auto. destruct (lk_tuple 0 0 (S off) t m) as [[[w cp] m1]|]; auto.
    rewrite IH by lia. replace (S off * n + 1) with (S (S off * n + 0)) by lia. reflexivity.
  - destruct (div_mod_at n col off H) as [-> ->]. assert (Nat.ltb col n = true) as -> by now apply Nat.ltb_lt. cbn [andb]. destruct (Nat.ltb off usable); auto. destruct (lk_tuple col 0 off t m) as [[[w cp] m1]|]; auto.
    rewrite IH by lia. replace (off * n + S col) with (S (off * n + col)) by lia. reflexivity.
Qed.
Definition lkpos (n k j : nat) : pcell := PLk (k mod n) j (k / n).

Lemma lk_tuple_spec col off (t : list (AV p)) : forall j m w cp m', lk_tuple col j off t m = Some (w, cp, m') ->
  (forall d x, find_p m d = Some x -> find_p m' d = Some x) /\
  (forall i a, nth_error t i = Some a -> exists c x, av_cell a = Some c /\ find_p m' c = Some x /\ In (PLk col (j + i) off, av_val a) w /\ (In (x, PLk col (j + i) off) cp \/ x = PLk col (j + i) off)) /\
  (forall x y, In (x, y) cp -> exists i a c, nth_error t i = Some a /\ av_cell a = Some c /\ find_p m' c = Some x /\ y = PLk col (j + i) off) /\
  (forall d x, find_p m' d = Some x -> find_p m d = Some x \/ (c_tid d = external_tid /\ exists i a, nth_error t i = Some a /\ av_cell a = Some d /\ x = PLk col (j + i) off)) /\
  w = map (fun ia => (PLk col (fst ia) off, av_val (snd ia))) (combine (seq j (length t)) t).
Proof.
  induction t as [|a t IH]; intros j m w cp m' E; cbn [lk_tuple] in E.
  { injection E as <- <- <-. split; [auto|]. split; [intros [|i]; discriminate|]. split; [intros ? ? []|]. split; auto. }
  destruct (constrain_virtual_equals_external a (PLk col j off) m) as [[cp1 m1]|] eqn:E1; [|discriminate].
  destruct (lk_tuple col (S j) off t m1) as [[[w2 cp2] m2]|] eqn:E2; [|discriminate]. injection E as <- <- <-.
  destruct (IH _ _ _ _ _ E2) as (H1 & H2 & H3 & H4 & H5). clear IH E2.
  unfold constrain_virtual_equals_external in E1. destruct (av_cell a) as [c|] eqn:Ec; [|discriminate].
  assert (K : (forall d x, find_p m d = Some x -> find_p m1 d = Some x) /\ exists x, find_p m1 c = Some x /\ ((cp1 = [(x, PLk col j off)]) \/ (cp1 = [] /\ x = PLk col j off)) /\
     forall d x, find_p m1 d = Some x -> find_p m d = Some x \/ (c_tid d = external_tid /\ d = c /\ x = PLk col j off)).
  { destruct (find_p m c) as [x|] eqn:Ef.
    - injection E1 as <- <-. split; auto. exists x. repeat split; auto.
    - destruct (Nat.eqb (c_tid c) external_tid) eqn:Et; [|discriminate]. injection E1 as <- <-. apply Nat.eqb_eq in Et. split.
      + intros d x Hd. now rewrite find_p_app, Hd.
      + exists (PLk col j off). split; [rewrite find_p_app, Ef, find_p_cons; now rewrite (proj2 (cell_eqb_eq c c) eq_refl)|]. split; auto.
        intros d x Hd. rewrite find_p_app in Hd. destruct (find_p m d); auto. rewrite find_p_cons in Hd. destruct (cell_eqb c d) eqn:Ed; [|discriminate]. apply cell_eqb_eq in Ed. injection Hd as <-. subst. auto. }
  destruct K as (K1 & x & K2 & K3 & K4). split; [auto|]. split; [|split; [|split]].
  - intros [|i] b Hb; cbn in Hb.
    + injection Hb as <-. exists c, x. split; auto. split; auto. rewrite Nat.add_0_r. split; [now left|]. destruct K3 as [->|[-> ->]]; auto. left. now left.
    + destruct (H2 i b Hb) as (c' & x' & G1 & G2 & G3 & G4). exists c', x'. split; auto. split; auto. replace (j + S i) with (S j + i) by lia. split; [now right|]. destruct G4; auto. left. apply in_or_app. auto.
  - intros y z Hy. apply in_app_or in Hy as [Hy|Hy].
    + destruct K3 as [->|[-> _]]; [|destruct Hy]. destruct Hy as [Hy|[]]. injection Hy as <- <-. exists 0, a, c. rewrite Nat.add_0_r. auto.
    + destruct (H3 y z Hy) as (i & b & c' & G1 & G2 & G3 & ->). exists (S i), b, c'. replace (j + S i) with (S j + i) by lia. auto.
  - intros d y Hd. apply H4 in Hd as [Hd|(G1 & i & b & G2 & G3 & ->)].
    + apply K4 in Hd as [Hd|(G1 & -> & ->)]; auto. right. split; auto. exists 0, a. rewrite Nat.add_0_r. auto.
    + right. split; auto. exists (S i), b. replace (j + S i) with (S j + i) by lia. auto.
  - cbn [length seq combine map fst snd]. now rewrite H5.
Qed.
Lemma lk_idx_spec n usable (l : list (list (AV p))) : forall s m w cp m', lk_idx n usable s l m = Some (w, cp, m') ->
  (forall d x, find_p m d = Some x -> find_p m' d = Some x) /\
  (forall k t i a, nth_error l k = Some t -> nth_error t i = Some a -> exists c x, (s + k) / n < usable /\ av_cell a = Some c /\ find_p m' c = Some x /\
      In (lkpos n (s + k) i, av_val a) w /\ (In (x, lkpos n (s + k) i) cp \/ x = lkpos n (s + k) i)) /\
  (forall x y, In (x, y) cp -> exists k t i a c, nth_error l k = Some t /\ nth_error t i = Some a /\ av_cell a = Some c /\ find_p m' c = Some x /\ y = lkpos n (s + k) i) /\
  (forall d x, find_p m' d = Some x -> find_p m d = Some x \/ (c_tid d = external_tid /\ exists k t i a, nth_error l k = Some t /\ nth_error t i = Some a /\ av_cell a = Some d /\ x = lkpos n (s + k) i)).
Proof.
  induction l as [|t l IH]; intros s m w cp m' E; cbn [lk_idx] in E.
  { injection E as <- <- <-. split; [auto|]. split; [intros [|k]; discriminate|]. split; [intros ? ? []|]. auto. }
  destruct (Nat.ltb_spec (s / n) usable); [|discriminate]. destruct (lk_tuple (s mod n) 0 (s / n) t m) as [[[w1 cp1] m1]|] eqn:E1; [|discriminate].
  destruct (lk_idx n usable (S s) l m1) as [[[w2 cp2] m2]|] eqn:E2; [|discriminate]. injection E as <- <- <-.
  destruct (IH _ _ _ _ _ E2) as (H1 & H2 & H3 & H4). apply lk_tuple_spec in E1 as (G1 & G2 & G3 & G4 & _).
  assert (EP : forall i, PLk (s mod n) (0 + i) (s / n) = lkpos n (s + 0) i) by (intros; unfold lkpos; now rewrite Nat.add_0_r).
  split; [auto|]. split; [|split].
  - intros [|k] t' i a Hk Hi; cbn in Hk.
    + injection Hk as <-. destruct (G2 i a Hi) as (c & x & F1 & F2 & F3 & F4). exists c, x. rewrite <- EP. rewrite Nat.add_0_r. split; auto. split; auto. split; auto. split; [apply in_or_app; auto|]. destruct F4; auto. left. apply in_or_app. auto.
    + destruct (H2 k t' i a Hk Hi) as (c & x & F0 & F1 & F2 & F3 & F4). replace (s + S k) with (S s + k) by lia. exists c, x. split; auto. split; auto. split; auto. split; [apply in_or_app; auto|]. destruct F4; auto. left. apply in_or_app. auto.
  - intros x y Hx. apply in_app_or in Hx as [Hx|Hx].
    + destruct (G3 x y Hx) as (i & a & c & F1 & F2 & F3 & ->). exists 0, t, i, a, c. rewrite EP. auto 6.
    + destruct (H3 x y Hx) as (k & t' & i & a & c & F0 & F1 & F2 & F3 & ->). exists (S k), t', i, a, c. replace (s + S k) with (S s + k) by lia. auto 6.
  - intros d x Hd. apply H4 in Hd as [Hd|(F0 & k & t' & i & a & F1 & F2 & F3 & ->)].
    + apply G4 in Hd as [Hd|(F0 & i & a & F1 & F2 & ->)]; auto. right. split; auto. exists 0, t, i, a. rewrite EP. auto.
    + right. split; auto. exists (S k), t', i, a. replace (s + S k) with (S s + k) by lia. auto.
Qed.
(** enough columns: never a panic *)
Lemma lk_tuple_total col off (t : list (AV p)) : forall j m, (forall a, In a t -> exists c, av_cell a = Some c /\ (find_p m c <> None \/ c_tid c = external_tid)) ->
  exists r, lk_tuple col j off t m = Some r.
Proof.
  induction t as [|a t IH]; intros j m H; cbn [lk_tuple]; eauto. destruct (H a ltac:(now left)) as (c & Ec & Hc). unfold constrain_virtual_equals_external. rewrite Ec.
  assert (K : forall m1, (forall d, find_p m d <> None -> find_p m1 d <> None) -> exists r, lk_tuple col (S j) off t m1 = Some r).
  { intros m1 Hm. apply IH. intros b Hb. destruct (H b ltac:(now right)) as (cb & Eb & Hcb). exists cb. split; auto. destruct Hcb; auto. }
  destruct (find_p m c) eqn:Ef.
  - destruct (K m) as ([[w cp] m2] & ->); eauto.
  - destruct Hc as [Hc|Hc]; [congruence|]. rewrite Hc, Nat.eqb_refl. destruct (K (m ++ [(c, PLk col j off)])) as ([[w cp] m2] & ->); eauto.
    intros d Hd. rewrite find_p_app. destruct (find_p m d); congruence.
Qed.
Lemma lk_idx_total n usable (l : list (list (AV p))) : forall s m, 0 < n -> s + length l <= n * usable ->
  (forall t a, In t l -> In a t -> exists c, av_cell a = Some c /\ (find_p m c <> None \/ c_tid c = external_tid)) -> exists r, lk_idx n usable s l m = Some r.
Proof.
  induction l as [|t l IH]; intros s m Hn Hs H; cbn [lk_idx length] in *; eauto.
  assert (Nat.ltb (s / n) usable = true) as -> by (apply Nat.ltb_lt, Nat.div_lt_upper_bound; lia).
  destruct (lk_tuple_total (s mod n) (s / n) t 0 m) as ([[w cp] m1] & E). { intros a Ha. apply (H t a); auto. now left. }
  rewrite E. destruct (IH (S s) m1) as ([[w' cp'] m2] & ->); eauto; try lia.
  intros t' a Ht Ha. destruct (H t' a ltac:(now right) Ha) as (c & Ec & Hc). exists c. split; auto. destruct Hc as [Hc|Hc]; auto. left. destruct (find_p m c) as [x|] eqn:Ef; [|congruence].
  apply lk_tuple_spec in E as (G1 & _). rewrite (G1 c x Ef). congruence.
Qed.
Lemma lk_raw_idx n usable (calls : list (tag * list (AV p))) m : 0 < n -> lookup_assign_raw n usable calls m = lk_idx n usable 0 (in_order calls) m.
Proof. intros Hn. unfold lookup_assign_raw. rewrite lk_loop_idx by lia. reflexivity. Qed.
Lemma lk_raw_zero usable (calls : list (tag * list (AV p))) m r : lookup_assign_raw 0 usable calls m = Some r -> in_order calls = [].
Proof. unfold lookup_assign_raw. destruct (in_order calls); auto. cbn. discriminate. Qed.
(** the prover's run writes the same cells *)
Lemma lk_wit_same n usable (l : list (list (AV p))) : forall col off m w cp m', lk_loop n usable col off l m = Some (w, cp, m') -> lk_wit n usable col off l = Some w.
Proof.
  induction l as [|t l IH]; intros col off m w cp m' E; cbn [lk_loop lk_wit] in *; [now injection E as <- _ _|].
  destruct (Nat.leb n col); match goal with |- context [if ?b then _ else _] => destruct b; [|discriminate] end;
  match type of E with context [lk_tuple ?a ?b ?c ?d ?e] => destruct (lk_tuple a b c d e) as [[[w1 cp1] m1]|] eqn:E1; [|discriminate] end;
  match type of E with context [lk_loop ?a ?b ?c ?d ?e ?f] => destruct (lk_loop a b c d e f) as [[[w2 cp2] m2]|] eqn:E2; [|discriminate] end;
  injection E as <- _ _; rewrite (IH _ _ _ _ _ _ E2); cbn; f_equal; f_equal; apply lk_tuple_spec in E1 as (_ & _ & _ & _ & ->); reflexivity.
Qed.
End L.
