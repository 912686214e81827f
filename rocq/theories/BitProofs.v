(** assert_bit, div_unsafe, is_zero, is_equal, indicators and selections. *)
From Coq Require Import ZArith Lia List Bool Znumtheory Ring.
From Verif Require Import Field Context ContextProofs Spec Logic Utils Gate GateProofs ChainProofs IPProofs.
Import ListNotations.
Local Open Scope Z_scope.

Section Bits.
Context {p : positive}.
Notation Fp := (F p).
Variable lb : nat.
Hypothesis Hp : prime (Z.pos p).
Notation sound := (sound lb).
Notation comp := (comp lb).
Add Ring Fring : (F_ring p) (morphism (F_morph p), constants [Fcst]).

Lemma bit_iff (x : Fp) : (x * x)%F = x <-> is_bit x.
Proof.
  split.
  - intros H. assert (E : (x * (x - 1))%F = 0%F) by (transitivity (x * x - x)%F; [ring|rewrite H; ring]).
    apply F_integral in E as [E|E]; auto; [left; auto|right].
    transitivity (x - 1 + 1)%F; [ring|]. rewrite E. ring.
  - intros [->| ->]; ring.
Qed.

Lemma assert_bit_sound (x : AV p) : sound (assert_bit x) (fun _ => True) (fun sg _ => is_bit (avs sg x)).
Proof.
  unfold assert_bit. eapply sound_weaken; [apply sound_region; nonneg_offs|auto|].
  intros sg o _ (v & Hq & Hg). cellv Hq 0%nat. cellv Hq 1%nat. cellv Hq 2%nat. cellv Hq 3%nat. gatev Hg 0%nat.
  apply bit_iff. rewrite C, C0, C1, C2 in G. rewrite <- G at 3. ring.
Qed.
Lemma assert_bit_comp (x : AV p) v : hv x v -> is_bit v ->
  comp (fun rho => av_ok rho x) (assert_bit x) (fun _ => True) (fun _ _ => True).
Proof.
  intros Hx Hb. unfold assert_bit. eapply comp_weaken; [apply comp_region|qoks|auto|auto].
  - repeat constructor; cbn; auto; apply Hx.
  - offs_in.
  - gates. rewrite <- (proj2 (bit_iff v) Hb) at 3. ring.
Qed.

Lemma div_unsafe_sound (a b : qcell p) : sound (div_unsafe a b) (fun _ => True)
  (fun sg o => exists x y, qsem sg a x /\ qsem sg b y /\ (avs sg o * y)%F = x).
Proof.
  unfold div_unsafe. sregion (fun l o => @sound_region_get p lb l o 3).
  cellv Hq 0%nat. cellv Hq 2%nat. cellv Hq 3%nat. gatev Hg 0%nat.
  exists (v 3%nat), (v 2%nat). repeat split; auto. rewrite Ho, <- G, C. ring.
Qed.
Lemma div_unsafe_comp (a b : qcell p) x y : qh a x -> qh b y -> y <> F0 ->
  comp (qok2 a b) (div_unsafe a b) (fun o => hv o (Fdiv x y)) (fun rho o => av_ok rho o).
Proof.
  intros Ha Hb Hy. unfold div_unsafe, qok2.
  eapply comp_lift_bind; [eauto using qh_val|].
  eapply comp_lift_bind; [unfold invert; rewrite (proj2 (Fis0_false _ y) Hy); reflexivity|].
  cregion (fun l o => @comp_region_get p lb l o 3).
  - replace (0 + Finv y * x * y)%F with (Finv y * y * x)%F by ring. rewrite Finv_l; auto. ring.
  - unfold Fdiv. ring.
Qed.

Lemma Fis0_eqb (x : Fp) : Fis0 x = Feqb x F0.
Proof. reflexivity. Qed.

Lemma is_zero_gates (x z i : Fp) : (z + x * i)%F = 1%F -> (0 + x * z)%F = 0%F -> z = fbool (Fis0 x).
Proof.
  intros H1 H2. destruct (Fis0 x) eqn:E; cbn [fbool].
  - apply Fis0_true in E. subst. rewrite <- H1. ring.
  - apply Fis0_false in E. assert ((x * z)%F = F0) by (rewrite <- H2; ring).
    apply F_integral in H as [H|H]; auto. congruence.
Qed.
Lemma is_zero_wit_spec (x : Fp) : fst (is_zero_wit x) = fbool (Fis0 x) /\
  (fst (is_zero_wit x) + x * aeval (snd (is_zero_wit x)))%F = 1%F /\ (0 + x * fst (is_zero_wit x))%F = 0%F.
Proof.
  unfold is_zero_wit. destruct (Fis0 x) eqn:E; cbn.
  - apply Fis0_true in E. subst. repeat split; ring.
  - apply Fis0_false in E. repeat split; try ring.
    transitivity (Finv x * x)%F; [ring|]. now apply Finv_l.
Qed.

Lemma is_zero_sound (a : AV p) : sound (is_zero a) (fun _ => True)
  (fun sg o => avs sg o = fbool (Fis0 (avs sg a))).
Proof.
  unfold is_zero. slift. destruct (is_zero_wit a0) as [z i].
  sregion2 (fun l o e => @sound_smart_get p lb l o e 2).
  cellv Hq 1%nat. cellv Hq 3%nat. cellv Hq 4%nat. cellv Hq 5%nat. cellv Hq 7%nat.
  gatev Hg 0%nat. gatev Hg 4%nat. eqv He 0%nat 6%nat.
  rewrite Ho, <- E. eapply is_zero_gates.
  - rewrite <- C, G. exact C0.
  - rewrite <- C2, E, <- C1, G0. rewrite C3, C1. reflexivity.
Qed.
Lemma is_zero_comp (a : AV p) x : hv a x ->
  comp (fun rho => av_ok rho a) (is_zero a) (fun o => hv o (fbool (Fis0 x))) (fun rho o => av_ok rho o).
Proof.
  intros Ha. unfold is_zero. clift. destruct (is_zero_wit_spec x) as (W1 & W2 & W3).
  destruct (is_zero_wit x) as [z i]. cbn [fst snd] in *.
  assert (Hc : av_cell a <> None) by apply Ha.
  csmart (fun l o e => @comp_smart_get p lb l o e 2); auto.
Qed.

Lemma sub_zero_iff (x y : Fp) : Fis0 (x - y)%F = Feqb x y.
Proof.
  destruct (Feqb x y) eqn:E.
  - apply Feqb_eq in E. subst. apply Fis0_true. ring.
  - apply Feqb_neq in E. apply Fis0_false. intros H. apply E. transitivity (x - y + y)%F; [ring|]. rewrite H. ring.
Qed.
Lemma is_equal_sound (a b : qcell p) : sound (is_equal a b) (fun _ => True)
  (fun sg o => exists x y, qsem sg a x /\ qsem sg b y /\ avs sg o = fbool (Feqb x y)).
Proof.
  unfold is_equal. eapply sound_bind; [apply sub_sound|]. intros d _.
  eapply sound_weaken; [apply is_zero_sound|auto|]. intros sg o _ Ho (x & y & Hx & Hy & Hd).
  exists x, y. repeat split; auto. now rewrite Ho, Hd, sub_zero_iff.
Qed.
Lemma is_equal_comp (a b : qcell p) x y : qh a x -> qh b y ->
  comp (qok2 a b) (is_equal a b) (fun o => hv o (fbool (Feqb x y))) (fun rho o => av_ok rho o).
Proof.
  intros Ha Hb. unfold is_equal. eapply comp_bind; [apply sub_comp; eauto|auto|]. intros d Hd.
  rewrite <- sub_zero_iff. eapply comp_weaken; [apply (is_zero_comp _ _ Hd)|tauto|auto|auto].
Qed.

(** ** bits_to_indicator *)
(** one doubling step on values *)
Definition dbl (b : Fp) (vs : list Fp) : list Fp := flat_map (fun v => [(1 - b) * v; v * b]%F) vs.
(** specification: the indicator of little-endian bits *)
Fixpoint ind_of (bits : list Fp) : list Fp :=
  match bits with [] => [F1] | b :: bs => dbl b (ind_of bs) end.

Lemma dbl_app b u v : dbl b (u ++ v) = dbl b u ++ dbl b v.
Proof. unfold dbl. apply flat_map_app. Qed.
Lemma dbl_length b vs : length (dbl b vs) = (2 * length vs)%nat.
Proof. unfold dbl. induction vs; cbn [flat_map length app]; auto. rewrite IHvs. lia. Qed.
Lemma ind_of_length bits : length (ind_of bits) = (2 ^ length bits)%nat.
Proof. induction bits; cbn [ind_of length]; auto. rewrite dbl_length, IHbits. reflexivity. Qed.
Lemma dbl_nth b vs i : nth (2 * i) (dbl b vs) F0 = ((1 - b) * nth i vs 0)%F /\ nth (2 * i + 1) (dbl b vs) F0 = (nth i vs 0 * b)%F.
Proof.
  revert i. induction vs as [|v vs IH]; intros i.
  - cbn. split; destruct i; cbn; try (destruct (i + 0)%nat); cbn; try ring; destruct (i + S (i + 0) + 1)%nat; ring.
  - destruct i as [|i]; [cbn; auto|].
    replace (2 * S i)%nat with (S (S (2 * i))) by lia.
    cbn [dbl flat_map app nth]. fold (dbl b vs). apply IH.
Qed.

Lemma skipn_add {A} (l : list A) : forall a b, skipn a (skipn b l) = skipn (a + b) l.
Proof.
  intros a b. revert l. induction b as [|b IH]; intros l; [now rewrite Nat.add_0_r|].
  destruct l as [|x l]; [now rewrite !skipn_nil|]. rewrite Nat.add_succ_r. cbn [skipn]. apply IH.
Qed.
(** one value-level step of the inner loop *)
Definition vstep (b : Fp) (off : nat) (vs : list Fp) (j : nat) : list Fp :=
  vs ++ [(1 - b) * nth (off + j) vs 0; nth (off + j) vs 0 * b]%F.

Lemma vsteps b off vs m : (off + m <= length vs)%nat ->
  fold_left (vstep b off) (seq 0 m) vs = vs ++ dbl b (firstn m (skipn off vs)).
Proof.
  induction m as [|m IH]; intros H.
  - cbn. now rewrite app_nil_r.
  - rewrite seq_S, fold_left_app, IH by lia. cbn [fold_left]. unfold vstep. cbn [Nat.add].
    rewrite app_nth1 by lia.
    assert (E : firstn (S m) (skipn off vs) = firstn m (skipn off vs) ++ [nth (off + m) vs F0]).
    { replace (S m) with (m + 1)%nat by lia. rewrite <- firstn_skipn with (n := m) (l := skipn off vs) at 1.
      rewrite firstn_app. rewrite firstn_firstn. rewrite Nat.min_r by lia. f_equal.
      rewrite firstn_length_le by (rewrite skipn_length; lia).
      replace (m + 1 - m)%nat with 1%nat by lia. rewrite skipn_add.
      rewrite (skipn_nth vs (m + off) (nth (off + m) vs F0)); [reflexivity|].
      rewrite Nat.add_comm. apply nth_error_nth'. lia. }
    rewrite E, dbl_app, <- app_assoc. reflexivity.
Qed.

Definition vround (st : list Fp * nat) (ib : nat * Fp) : list Fp * nat :=
  (fold_left (vstep (snd ib) (snd st)) (seq 0 (2 ^ fst ib)) (fst st), (snd st + 2 ^ fst ib)%nat).

(** after processing the [k] most significant bits [bs] (most significant first), the state is
    (junk of length 2^k - 2) ++ indicator of those bits *)
Lemma vrounds (others : list Fp) : forall lastb k junk ind,
  ind = ind_of lastb -> length lastb = k -> (1 <= k)%nat -> length junk = (2 ^ k - 2)%nat ->
  let r := fold_left vround (combine (seq k (length others)) others) (junk ++ ind, length junk) in
  let bs := rev others ++ lastb in
  exists junk', fst r = junk' ++ ind_of bs /\ length junk' = (2 ^ length bs - 2)%nat.
Proof.
  induction others as [|b others IH]; intros lastb k junk ind Hi Hl Hk Hj; cbn zeta.
  - cbn. exists junk. subst. auto.
  - cbn [length seq combine fold_left]. unfold vround at 2. cbn [fst snd].
    assert (L1 : length ind = (2 ^ k)%nat) by (subst; apply ind_of_length).
    rewrite vsteps by (rewrite app_length; lia).
    rewrite skipn_app, skipn_all2, Nat.sub_diag by lia. cbn [skipn app]. rewrite firstn_all2 by lia.
    replace (junk ++ ind ++ dbl b ind) with ((junk ++ ind) ++ dbl b ind) by now rewrite app_assoc.
    replace (length junk + 2 ^ k)%nat with (length (junk ++ ind)) by (rewrite app_length; lia).
    destruct (IH (b :: lastb) (S k) (junk ++ ind) (dbl b ind)) as (j' & E1 & E2).
    + subst. reflexivity.
    + cbn. lia.
    + lia.
    + rewrite app_length, L1, Hj. cbn [Nat.pow]. assert (2 <= 2 ^ k)%nat; [|lia].
      destruct k; [lia|]. cbn [Nat.pow]. pose proof (Nat.pow_nonzero 2 k). lia.
    + exists j'. cbn [rev]. rewrite <- !app_assoc in *. cbn [app] in *. auto.
Qed.


Lemma nth_map_avs sg (ind : list (AV p)) k x : nth_error ind k = Some x -> nth k (map (avs sg) ind) F0 = avs sg x.
Proof. intros H. apply nth_error_nth. now rewrite nth_error_map, H. Qed.

Lemma bti_inv_sound (bit x : AV p) w :
  sound (bind (assign_region [Witness w; Existing x; Existing bit; Existing x] [0]) (fun _ => ctx_get (-4)))
     (fun _ => True) (fun sg y => avs sg y = ((1 - avs sg bit) * avs sg x)%F).
Proof.
  sregion (fun l o => @sound_region_get p lb l o 4).
  cellv Hq 1%nat. cellv Hq 2%nat. cellv Hq 3%nat. gatev Hg 0%nat.
  rewrite Ho. rewrite C, C0, C1 in G.
  transitivity (v 0%nat + avs sg x * avs sg bit - avs sg x * avs sg bit)%F; [ring|]. rewrite G. ring.
Qed.
Lemma bti_inv_comp (bit x : AV p) b v : hv bit b -> hv x v ->
  comp (fun rho => av_ok rho bit /\ av_ok rho x)
    (bind (assign_region [Witness ((1 - b) * v)%F; Existing x; Existing bit; Existing x] [0]) (fun _ => ctx_get (-4)))
     (fun y => hv y ((1 - b) * v)%F) (fun rho y => av_ok rho y).
Proof.
  intros Hb Hv. assert (av_cell bit <> None) by apply Hb. assert (av_cell x <> None) by apply Hv.
  cregion (fun l o => @comp_region_get p lb l o 4).
Qed.

Lemma bti_step_sound bit off ind j : (off + j < length ind)%nat ->
  sound (bti_step bit off ind j) (fun ind' => length ind' = S (S (length ind)))
    (fun sg ind' => map (avs sg) ind' = vstep (avs sg bit) off (map (avs sg) ind) j).
Proof.
  intros Hlt. unfold bti_step. apply sound_lift_bind. intros x Ex. slift.
  apply sound_assoc. eapply sound_bind; [apply bti_inv_sound|]. intros y _.
  apply sound_lift_bind. intros x' Ex'. rewrite nth_error_app1 in Ex' by auto. rewrite Ex in Ex'. injection Ex' as <-.
  eapply sound_bind; [apply mul_sound|]. intros pr _. apply sound_ret; [rewrite !app_length; cbn; lia|].
  intros sg (u & w & -> & -> & Hpr) Hy. unfold vstep. rewrite !map_app, (nth_map_avs sg ind _ x Ex).
  cbn. rewrite Hpr, Hy, <- app_assoc. reflexivity.
Qed.
Lemma Forall2_nth_l {A B} (R : A -> B -> Prop) l l' : Forall2 R l l' -> forall i x, nth_error l i = Some x ->
  exists y, nth_error l' i = Some y /\ R x y.
Proof. induction 1; intros [|i] z Hn; cbn in *; try discriminate; [injection Hn as <-; eauto|eauto]. Qed.
Lemma Forall_nth_e {A} (R : A -> Prop) l i x : Forall R l -> nth_error l i = Some x -> R x.
Proof. intros HF Hn. rewrite Forall_forall in HF. eauto using nth_error_In. Qed.

Lemma bti_step_comp bit b off ind vs j : hv bit b -> Forall2 hv ind vs -> (off + j < length ind)%nat ->
  comp (fun rho => av_ok rho bit /\ Forall (av_ok rho) ind) (bti_step bit off ind j)
   (fun ind' => Forall2 hv ind' (vstep b off vs j)) (fun rho ind' => Forall (av_ok rho) ind').
Proof.
  intros Hb HF Hlt. unfold bti_step.
  destruct (nth_error ind (off + j)) as [x|] eqn:Ex; [|apply nth_error_None in Ex; lia].
  destruct (Forall2_nth_l _ _ _ HF _ _ Ex) as (v & Ev & Hv).
  assert (En : nth (off + j) vs F0 = v) by now apply nth_error_nth.
  eapply comp_lift_bind; [reflexivity|]. clift.
  apply comp_assoc. eapply comp_bind; [apply (bti_inv_comp bit x b v); auto|..].
  { intros rho [H1 H2]. split; auto. eapply Forall_nth_e; eauto. }
  intros y Hy. eapply comp_lift_bind; [rewrite nth_error_app1 by auto; exact Ex|].
  eapply comp_bind; [apply mul_comp; eauto using qh_existing|..].
  { intros rho [[H1 H2] H3]. split; cbn; auto. eapply Forall_nth_e; eauto. }
  intros pr Hpr. apply comp_ret.
  - unfold vstep. rewrite En. replace (vs ++ [(1 - b) * v; v * b]%F) with ((vs ++ [(1 - b) * v]%F) ++ [v * b]%F) by now rewrite <- app_assoc.
    apply Forall2_app; [apply Forall2_app|]; auto.
  - intros rho [[[H1 H2] H3] H4]. apply Forall_app; split; [apply Forall_app; split|]; auto.
Qed.

Lemma fold_left_snoc {A B} (f : A -> B -> A) l x a : fold_left f (l ++ [x]) a = f (fold_left f l a) x.
Proof. now rewrite fold_left_app. Qed.

Lemma seq_split_lt n done x rest : seq 0 n = done ++ x :: rest -> (x < n)%nat /\ x = length done.
Proof.
  intros E. assert (Hx : nth_error (seq 0 n) (length done) = Some x) by (rewrite E, nth_error_app2, Nat.sub_diag by lia; reflexivity).
  assert (Hl : (length done < n)%nat).
  { apply (f_equal (@length nat)) in E. rewrite seq_length, app_length in E. cbn in E. lia. }
  rewrite nth_error_nth' with (d := O) in Hx by (rewrite seq_length; auto). rewrite seq_nth in Hx by auto.
  injection Hx as <-. lia.
Qed.

Lemma bti_inner_sound bit off m ind : (off + m <= length ind)%nat ->
  sound (foldM (bti_step bit off) (seq 0 m) ind) (fun ind' => length ind' = (length ind + 2 * m)%nat)
    (fun sg ind' => map (avs sg) ind' = fold_left (vstep (avs sg bit) off) (seq 0 m) (map (avs sg) ind)).
Proof.
  intros Hm. eapply sound_weaken.
  - apply (sound_foldM lb (bti_step bit off) (fun done ind' => length ind' = (length ind + 2 * length done)%nat)
      (fun done sg ind' => map (avs sg) ind' = fold_left (vstep (avs sg bit) off) done (map (avs sg) ind))).
    + cbn. lia.
    + intros done x rest b E Hb. apply seq_split_lt in E as [E1 E2].
      eapply sound_weaken; [apply bti_step_sound; lia|..].
      * intros a Ha. cbv beta in *; rewrite app_length. cbn. lia.
      * intros sg a _ Ha HQ. rewrite fold_left_snoc, <- HQ. exact Ha.
  - intros a. now rewrite seq_length.
  - intros sg a _ H. apply H. reflexivity.
Qed.
Lemma bti_inner_comp bit b off m ind vs : hv bit b -> Forall2 hv ind vs -> (off + m <= length ind)%nat ->
  comp (fun rho => av_ok rho bit /\ Forall (av_ok rho) ind) (foldM (bti_step bit off) (seq 0 m) ind)
   (fun ind' => Forall2 hv ind' (fold_left (vstep b off) (seq 0 m) vs)) (fun rho ind' => Forall (av_ok rho) ind').
Proof.
  intros Hb HF Hm.
  eapply comp_weaken.
  - apply (comp_foldM lb (bti_step bit off) (fun rho => av_ok rho bit)
      (fun done ind' => Forall2 hv ind' (fold_left (vstep b off) done vs) /\ (off + m <= length ind')%nat)
      (fun done rho ind' => Forall (av_ok rho) ind')).
    + split; auto.
    + intros done x rest ind' E [H1 H2]. apply seq_split_lt in E as [E1 E2].
      eapply comp_weaken; [apply (bti_step_comp bit b off ind' _ x Hb H1); lia|auto| |auto].
      intros a Ha. rewrite fold_left_snoc. split; auto.
      apply Forall2_len in Ha. apply Forall2_len in H1. rewrite Ha. unfold vstep at 1. rewrite app_length. lia.
  - auto.
  - intros a [H _]. exact H.
  - auto.
Qed.

Lemma vround_len st ib : length (fst (vround st ib)) = (length (fst st) + 2 * 2 ^ fst ib)%nat /\ snd (vround st ib) = (snd st + 2 ^ fst ib)%nat.
Proof.
  split; [|reflexivity]. unfold vround. cbn [fst snd]. generalize (2 ^ fst ib)%nat as m. induction m as [|m IH]; cbn [fst].
  - cbn. lia.
  - rewrite seq_S, fold_left_snoc. unfold vstep at 1. rewrite app_length, IH. cbn [length]. lia.
Qed.

(** lengths along the rounds: processing idx = k, k+1, ... with 2^k cells after the offset *)
Lemma bti_rounds_sound others : forall k ind off, length ind = (off + 2 ^ k)%nat ->
  sound (foldM bti_round (combine (seq k (length others)) others) (ind, off))
    (fun r => length (fst r) = (snd r + 2 ^ (k + length others))%nat /\ (snd r + 2 ^ k = off + 2 ^ (k + length others))%nat)
    (fun sg r => (map (avs sg) (fst r), snd r) =
       fold_left vround (combine (seq k (length others)) (map (avs sg) others)) (map (avs sg) ind, off)).
Proof.
  induction others as [|bit others IH]; intros k ind off HL; cbn [length seq combine foldM map fold_left].
  - apply sound_ret; auto. cbn. rewrite Nat.add_0_r. auto.
  - eapply sound_bind.
    { unfold bti_round. cbn [fst snd]. eapply sound_bind; [apply (bti_inner_sound bit off (2 ^ k) ind); lia|].
      intros ind' HL'. apply (sound_ret lb _ (fun r => length (fst r) = (snd r + 2 ^ S k)%nat /\ snd r = (off + 2 ^ k)%nat)
        (fun sg r => map (avs sg) ind' = fold_left (vstep (avs sg bit) off) (seq 0 (2 ^ k)) (map (avs sg) ind) ->
           (map (avs sg) (fst r), snd r) = vround (map (avs sg) ind, off) (k, avs sg bit))).
      - cbn [fst snd]. rewrite HL', HL. cbn [Nat.pow]. split; lia.
      - intros sg H. unfold vround. cbn [fst snd]. now rewrite H. }
    intros [ind' off'] [HL' HO']. cbn [fst snd] in HL', HO'.
    eapply sound_weaken; [apply (IH (S k) ind' off' HL')|..].
    + intros r [Hr1 Hr2]. replace (k + S (length others))%nat with (S k + length others)%nat by lia. split; [exact Hr1|].
      cbn [Nat.pow] in Hr2 |- *. lia.
    + intros sg r _ H1 H2. cbn [fst snd] in H2. rewrite H1. unfold vround at 2. rewrite H2. reflexivity.
Qed.
Lemma bti_rounds_comp others bs : forall k ind vs off, Forall2 hv others bs -> Forall2 hv ind vs -> length ind = (off + 2 ^ k)%nat ->
  comp (fun rho => Forall (av_ok rho) others /\ Forall (av_ok rho) ind)
    (foldM bti_round (combine (seq k (length others)) others) (ind, off))
    (fun r => Forall2 hv (fst r) (fst (fold_left vround (combine (seq k (length others)) bs) (vs, off))))
    (fun rho r => Forall (av_ok rho) (fst r)).
Proof.
  revert bs. induction others as [|bit others IH]; intros bs k ind vs off HB HI HL; inversion HB as [|? b ? bs' Hb HB']; subst;
    cbn [length seq combine foldM fold_left].
  - apply comp_ret; auto. cbn. tauto.
  - eapply comp_bind with (P1 := fun r => Forall2 hv (fst r) (fst (vround (vs, off) (k, b))) /\ snd r = (off + 2 ^ k)%nat)
      (Q1 := fun rho r => Forall (av_ok rho) (fst r)).
    { unfold bti_round. cbn [fst snd]. eapply comp_bind; [apply (bti_inner_comp bit b off (2 ^ k) ind vs); auto; lia|exact (fun _ H => H)|].
      intros ind' HI'. apply comp_ret; [split; [exact HI'|reflexivity]|]. cbn. tauto. }
    { intros rho [H1 H2]. inversion H1; subst. auto. }
    intros [ind' off'] [HI' Ho']. cbn [fst snd] in *. subst off'.
    eapply comp_weaken; [apply (IH bs' (S k) ind' _ (off + 2 ^ k)%nat HB' HI')|..].
    + rewrite (Forall2_len _ _ _ HI'). rewrite (proj1 (vround_len (vs, off) (k, b))). cbn [fst].
      rewrite <- (Forall2_len _ _ _ HI). rewrite HL. cbn [Nat.pow]. lia.
    + intros rho [[H1 H2] H3]. inversion H1; subst. auto.
    + auto.
    + auto.
Qed.

(** value of a list of field bits, little endian *)
Lemma ind_of_bits (bs : list bool) : forall i, (i < 2 ^ length bs)%nat ->
  nth i (ind_of (map fbool bs)) F0 = fbool (Z.of_nat i =? undigits 1 (map Z.b2z bs)).
Proof.
  induction bs as [|b bs IH]; intros i Hi.
  - cbn in *. assert (i = O) by lia. subst. reflexivity.
  - cbn [map ind_of undigits length Nat.pow] in *.
    pose proof (dbl_nth (fbool b) (ind_of (map fbool bs)) (i / 2)) as [D0 D1].
    assert (Hi2 : (i / 2 < 2 ^ length bs)%nat) by (apply Nat.div_lt_upper_bound; lia).
    specialize (IH _ Hi2). rewrite IH in D0, D1.
    pose proof (Nat.div_mod i 2 ltac:(lia)) as E. pose proof (Nat.mod_upper_bound i 2 ltac:(lia)).
    set (U := undigits 1 (map Z.b2z bs)) in *. set (h := (i / 2)%nat) in *.
    destruct (i mod 2)%nat as [|[|]] eqn:Em; [| |lia].
    + replace i with (2 * h)%nat by lia. rewrite D0. change (2 ^ Z.of_nat 1) with 2.
      destruct b; cbn [fbool Z.b2z].
      * replace (Z.of_nat (2 * h) =? 1 + 2 * U) with false by (symmetry; apply Z.eqb_neq; lia). cbn. ring.
      * replace (Z.of_nat (2 * h) =? 0 + 2 * U) with (Z.of_nat h =? U); [ring|].
        destruct (Z.eqb_spec (Z.of_nat h) U); symmetry; [apply Z.eqb_eq|apply Z.eqb_neq]; lia.
    + replace i with (2 * h + 1)%nat by lia. rewrite D1. change (2 ^ Z.of_nat 1) with 2.
      destruct b; cbn [fbool Z.b2z].
      * replace (Z.of_nat (2 * h + 1) =? 1 + 2 * U) with (Z.of_nat h =? U); [ring|].
        destruct (Z.eqb_spec (Z.of_nat h) U); symmetry; [apply Z.eqb_eq|apply Z.eqb_neq]; lia.
      * replace (Z.of_nat (2 * h + 1) =? 0 + 2 * U) with false by (symmetry; apply Z.eqb_neq; lia). cbn. ring.
Qed.

Lemma bits_to_indicator_sound bits :
  sound (bits_to_indicator bits) (fun o => length o = (2 ^ length bits)%nat)
    (fun sg o => map (avs sg) o = ind_of (map (avs sg) bits)).
Proof.
  unfold bits_to_indicator. destruct (rev bits) as [|lastb others] eqn:Er; [apply sound_panic|].
  assert (Eb : bits = rev others ++ [lastb]) by (rewrite <- (rev_involutive bits), Er; reflexivity).
  assert (Ek : length bits = S (length others)) by (rewrite Eb, app_length, rev_length; cbn; lia).
  slift. apply (sound_region_get2 lb _ _ 4 3); [nonneg_offs|cbn; lia|cbn; lia|]. intros i0 i1.
  eapply sound_bind; [apply (bti_rounds_sound others 1 [i0; i1] O); reflexivity|].
  intros r Hr. apply sound_assert_bind. intros Hle. apply Nat.leb_le in Hle.
  set (Q := fun sg (o : list (AV p)) => (exists v, region_sem sg v [Witness (1 - a)%F; Existing lastb; Constant 1%F; Constant 1%F] [0] /\
      avs sg i0 = v (4 - 4)%nat /\ avs sg i1 = v (4 - 3)%nat) -> map (avs sg) o = ind_of (map (avs sg) bits)).
  assert (HM : forall sg, (map (avs sg) (fst r), snd r) = fold_left vround (combine (seq 1 (length others)) (map (avs sg) others)) (map (avs sg) [i0; i1], O) ->
     Q sg (skipn (2 ^ length bits - 2) (fst r))).
  { intros sg HV (v & [Hq Hg] & H0 & H1). cellv Hq 1%nat. cellv Hq 2%nat. cellv Hq 3%nat. gatev Hg 0%nat.
    cbn [Nat.sub] in H0, H1.
    assert (Ei0 : avs sg i0 = (1 - avs sg lastb)%F). { rewrite H0. rewrite C, C0, C1 in G. rewrite <- G. ring. }
    assert (Ei1 : avs sg i1 = avs sg lastb) by congruence.
    destruct (vrounds (map (avs sg) others) [avs sg lastb] 1 [] (map (avs sg) [i0; i1])) as (j & E1 & E2); auto.
    { cbn. rewrite Ei0, Ei1. f_equal; [ring|]. f_equal. ring. }
    cbn [app length] in E1. rewrite map_length in E1. rewrite <- HV in E1. cbn [fst] in E1.
    rewrite <- skipn_map, E1. rewrite skipn_app, skipn_all2 by (rewrite E2, app_length, rev_length, map_length; cbn [length]; rewrite Ek; replace (length others + 1)%nat with (S (length others)) by lia; lia).
    cbn [app]. replace (2 ^ length bits - 2 - length j)%nat with O.
    - cbn [skipn]. rewrite Eb, map_app, map_rev. reflexivity.
    - rewrite E2, app_length, rev_length, map_length. cbn [length]. rewrite Ek. replace (length others + 1)%nat with (S (length others)) by lia. lia. }
  apply sound_ret; [|exact HM].
  destruct Hr as [Hr1 Hr2]. rewrite skipn_length, Hr1, Ek. cbn [Nat.add] in *.
  change (2 ^ 1)%nat with 2%nat in Hr2. lia.
Qed.

Lemma bits_to_indicator_comp bits bs : Forall2 hv bits bs -> bits <> [] ->
  comp (fun rho => Forall (av_ok rho) bits) (bits_to_indicator bits)
    (fun o => Forall2 hv o (ind_of bs)) (fun rho o => Forall (av_ok rho) o).
Proof.
  intros HB Hne. unfold bits_to_indicator. destruct (rev bits) as [|lastb others] eqn:Er.
  { exfalso. apply Hne. rewrite <- (rev_involutive bits), Er. reflexivity. }
  assert (Eb : bits = rev others ++ [lastb]) by (rewrite <- (rev_involutive bits), Er; reflexivity).
  assert (Ek : length bits = S (length others)) by (rewrite Eb, app_length, rev_length; cbn; lia).
  assert (HBr : exists b bo, hv lastb b /\ Forall2 hv others bo /\ bs = rev bo ++ [b]).
  { rewrite Eb in HB. apply Forall2_app_inv_l in HB as (u & w & H1 & H2 & ->).
    inversion H2 as [|? b ? ? Hb H3]; subst. inversion H3; subst. exists b, (rev u).
    split; auto. split; [|now rewrite rev_involutive].
    rewrite <- (rev_involutive others). clear - H1. induction H1; cbn; [constructor|]. apply Forall2_app; auto. }
  destruct HBr as (b & bo & Hb & Ho & ->).
  eapply comp_lift_bind; [exact (hv_val _ _ Hb)|].
  assert (Hc : av_cell lastb <> None) by apply Hb.
  apply (comp_region_get2 lb _ _ 4 3 (Witness (1 - b)%F) (Existing lastb)); [cell_oks|offs_in|cbn; lia|reflexivity|cbn; lia|reflexivity|gates|..].
  { intros rho HF. rewrite Eb in HF. apply Forall_app in HF as [_ HF]. inversion HF; subst.
    repeat constructor; auto; apply H1. }
  intros i0 i1 [V0 C0] [V1 C1]. cbn [qadv] in V0, V1.
  assert (H0 : hv i0 (1 - b)%F) by (split; auto). assert (H1 : hv i1 b) by (split; auto; rewrite V1; apply Hb).
  eapply comp_bind; [apply (bti_rounds_comp others bo 1 [i0; i1] [(1 - b)%F; b] O Ho); auto|..].
  { intros rho (HF & HA & HB'). rewrite Eb in HF. apply Forall_app in HF as [HF _]. split; [|auto].
    rewrite <- (rev_involutive others). now apply Forall_rev. }
  intros r Hr. cbv beta in Hr.
  destruct (vrounds bo [b] 1 [] [(1 - b)%F; b]) as (j & E1 & E2); auto.
  { cbn. f_equal; [ring|]. f_equal. ring. }
  cbn [app length] in E1. rewrite <- (Forall2_len _ _ _ Ho) in E1. rewrite E1 in Hr.
  assert (Lj : length j = (2 ^ length bits - 2)%nat).
  { rewrite E2, app_length, rev_length, <- (Forall2_len _ _ _ Ho), Ek. cbn [length].
    replace (length others + 1)%nat with (S (length others)) by lia. lia. }
  pose proof (Forall2_len _ _ _ Hr) as Lr. rewrite app_length in Lr.
  apply comp_assert_bind; [apply Nat.leb_le; lia|]. apply comp_ret.
  - apply Forall2_app_inv_r in Hr as (u & w & Hu & Hw & ->).
    rewrite skipn_app, skipn_all2 by (rewrite (Forall2_len _ _ _ Hu); lia).
    rewrite (Forall2_len _ _ _ Hu), Lj, Nat.sub_diag. exact Hw.
  - intros rho [_ HF]. cbn in HF. rewrite <- (firstn_skipn (2 ^ length bits - 2) (fst r)) in HF. apply Forall_app in HF. tauto.
Qed.

(** ** idx_to_indicator *)
Definition idx_ind (x : Fp) (len : nat) : list Fp :=
  map (fun i => fbool (Feqb x (of_Z p (Z.of_nat i)))) (seq 0 len).

Lemma idx_to_indicator_sound (idx : qcell p) len : sound (idx_to_indicator idx len) (fun o => length o = len)
  (fun sg o => exists x, qsem sg idx x /\ map (avs sg) o = idx_ind x len).
Proof.
  destruct len as [|n]; cbn [idx_to_indicator].
  { apply sound_ret; auto. intros sg. destruct idx; cbn; eauto using F0. }
  slift. destruct (is_zero_wit a) as [z inv].
  apply (sound_smart_get2 lb _ _ _ 3 2); [nonneg_offs|nonneg_offs|cbn; lia|cbn; lia|]. intros c first.
  eapply sound_bind.
  { apply (sound_mapM lb _ (fun _ _ => True) (fun sg i y => avs sg y = fbool (Feqb (avs sg c) (of_Z p (Z.of_nat i))))).
    intros i _. eapply sound_weaken; [apply is_equal_sound|auto|]. cbn. intros sg o _ (x & y & -> & -> & ->). reflexivity. }
  intros rest HR. apply Forall2_len in HR. rewrite seq_length in HR.
  apply sound_ret; [cbn; lia|].
  intros sg HF (v & [Hq Hg] & He & Ha & Hb). cbn [length Nat.sub] in Ha, Hb.
  cellv Hq 1%nat. cellv Hq 3%nat. cellv Hq 4%nat. cellv Hq 5%nat. cellv Hq 7%nat.
  gatev Hg 0%nat. gatev Hg 4%nat. eqv He 0%nat 6%nat. eqv He 1%nat 5%nat.
  exists (v 1%nat). split; auto. unfold idx_ind. cbn [seq map]. f_equal.
  - rewrite Hb, <- E. rewrite <- Fis0_eqb. change (of_Z p (Z.of_nat 0)) with (@F0 p). eapply is_zero_gates.
    + rewrite G. exact C0.
    + rewrite E, E0, <- C1, G0. congruence.
  - rewrite E0. rewrite <- Ha. clear - HF. induction HF; cbn; congruence.
Qed.
Lemma idx_to_indicator_comp (idx : qcell p) x len : qh idx x ->
  comp (fun rho => q_ok rho idx) (idx_to_indicator idx len) (fun o => Forall2 hv o (idx_ind x len)) (fun rho o => Forall (av_ok rho) o).
Proof.
  intros Hx. destruct len as [|n]; cbn [idx_to_indicator].
  { apply comp_ret; [constructor|]. constructor. }
  clift. destruct (is_zero_wit_spec x) as (W1 & W2 & W3). destruct (is_zero_wit x) as [z inv]. cbn [fst snd] in *.
  apply (comp_smart_get2 lb _ _ _ 3 2 idx (Witness z)); [cell_oks|offs_in|nonneg_offs|eqs|cbn; lia|reflexivity|cbn; lia|reflexivity|gates; auto|..].
  { qoks. }
  intros c first [Vc Cc] [Vf Cf]. assert (Hc : hv c x) by (split; auto; rewrite Vc; now apply qh_adv).
  assert (Hf : hv first (fbool (Fis0 x))) by (split; auto; rewrite Vf; cbn; congruence).
  eapply comp_bind.
  { apply (comp_mapM lb _ (fun i y => hv y (fbool (Feqb x (of_Z p (Z.of_nat i))))) (fun rho y => av_ok rho y) (seq 1 n) (fun rho => av_ok rho c)).
    intros i _. eapply comp_weaken; [apply is_equal_comp; eauto using qh_existing, qh_const| |auto|auto]. intros rho H; split; cbn; auto. }
  { tauto. }
  intros rest HR. apply comp_ret.
  - unfold idx_ind. cbn [seq map]. constructor; [exact Hf|]. clear - HR. induction HR; cbn; constructor; auto.
  - intros rho [[_ [_ H1]] H2]. constructor; auto.
Qed.

(** meaning of the indicator of an index: one-hot at [val x] *)
Lemma idx_ind_val x len i : Z.of_nat len <= Z.pos p -> (i < len)%nat ->
  nth i (idx_ind x len) F0 = fbool (val x =? Z.of_nat i).
Proof.
  intros HL Hi. unfold idx_ind. rewrite nth_indep with (d' := fbool (Feqb x (of_Z p (Z.of_nat 0)))) by now rewrite map_length, seq_length.
  rewrite (map_nth (fun i => fbool (Feqb x (of_Z p (Z.of_nat i))))), seq_nth by auto. cbn [Nat.add].
  unfold Feqb. rewrite val_of_Z_small by lia. reflexivity.
Qed.

(** ** select_by_indicator *)
Lemma sbi_cells_flat ai : forall s0 cells, sbi_cells s0 ai = Some cells ->
  exists tr, cells = flat3 tr /\ map fst tr = map (fun t : qcell p * AV p => (fst t, Existing (snd t))) ai.
Proof.
  induction ai as [|[a ind] l IH]; intros s0 cells H; cbn in H.
  - injection H as <-. exists []. auto.
  - destruct (av_value ind) as [i|]; [|discriminate]. destruct (if Fis0 i then Some s0 else q_value a) as [s1|]; [|discriminate].
    destruct (sbi_cells s1 l) as [c|] eqn:E; [|discriminate]. injection H as <-.
    apply IH in E as (tr & -> & E1). exists ((a, Existing ind, s1) :: tr). cbn. rewrite E1. auto.
Qed.
Lemma map_combine_fst {A B C} (f : B -> C) (a : list A) (b : list B) : length a = length b ->
  map fst (map (fun t => (fst t, f (snd t))) (combine a b)) = a /\ map snd (map (fun t => (fst t, f (snd t))) (combine a b)) = map f b.
Proof.
  revert b. induction a as [|x a IH]; intros [|y b] H; try discriminate; cbn; auto.
  destruct (IH b) as [E1 E2]; auto. rewrite E1, E2. auto.
Qed.
Lemma select_by_indicator_sound (a : list (qcell p)) (ind : list (AV p)) : length a = length ind ->
  sound (select_by_indicator a ind) (fun _ => True)
  (fun sg o => exists xs, Forall2 (qsem sg) a xs /\ avs sg o = dot xs (map (avs sg) ind)).
Proof.
  intros HL. unfold select_by_indicator. apply sound_lift_bind. intros cells E.
  apply sbi_cells_flat in E as (tr & -> & Etr).
  destruct (map_combine_fst Existing a ind HL) as [Ea Ei]. rewrite <- Etr in Ea, Ei. rewrite map_map in Ea, Ei.
  assert (Ltr : length tr = length a) by (rewrite <- (map_length fst tr), Etr, map_length, combine_length; lia).
  rewrite <- Ltr. eapply sound_weaken; [apply sound_region_last; [apply offs3_nonneg|cbn; lia]|auto|].
  intros sg o _ (v & HR & Ho). apply chain_sem in HR as (xs & ys & Q0 & Fx & Fy & _ & Vs).
  rewrite Ea in Fx. rewrite Ei in Fy. cbn [qsem] in Q0.
  cbn [length] in Ho. rewrite flat3_length in Ho.
  pose proof (Forall2_len _ _ _ Fx) as Lx. pose proof (Forall2_len _ _ _ Fy) as Ly. rewrite map_length in Ly.
  assert (ys = map (avs sg) ind).
  { clear - Fy. revert ys Fy. induction ind as [|i l IH]; intros ys H; inversion H; subst; cbn; auto. f_equal; auto. }
  subst ys. exists xs. split; auto. rewrite Ho. replace (S (3 * length tr) - 1)%nat with (3 * length tr)%nat by lia.
  rewrite Vs by lia. rewrite !firstn_all2 by (rewrite ?map_length; lia). rewrite Q0. ring.
Qed.

(** honest indicators: all zero except possibly one entry equal to 1 *)
Inductive onehot : list Fp -> Prop :=
| oh_nil : onehot []
| oh_zero l : onehot l -> onehot (F0 :: l)
| oh_one l : Forall (fun x => x = F0) l -> onehot (F1 :: l).

Lemma sbi_zero s0 (a : list (qcell p)) : forall ind xs ys, Forall2 qh a xs -> Forall2 hv ind ys -> length a = length ind ->
  Forall (fun y => y = F0) ys ->
  exists tr, sbi_cells s0 (combine a ind) = Some (flat3 tr) /\ hchain s0 tr xs ys /\
     map fst tr = map (fun t : qcell p * AV p => (fst t, Existing (snd t))) (combine a ind).
Proof.
  induction a as [|q a IH]; intros [|i ind] xs ys HA HI HL HZ; try discriminate; inversion HA as [|? x ? xs' Hx HA']; inversion HI as [|? y ? ys' Hy HI']; subst.
  - exists []. repeat split; auto. constructor.
  - inversion HZ; subst. destruct (IH ind xs' ys' HA' HI') as (tr & E1 & E2 & E3); auto.
    exists ((q, Existing i, (s0 + x * 0)%F) :: tr). cbn [combine sbi_cells]. rewrite (hv_val _ _ Hy).
    replace (Fis0 (0%F : Fp)) with true by reflexivity. rewrite E1. replace (s0 + x * 0)%F with s0 at 1 by ring.
    split; [cbn [option_map]; do 2 f_equal; cbn; do 4 f_equal; ring|]. split.
    + constructor; auto using qh_existing. now replace (s0 + x * 0)%F with s0 by ring.
    + cbn. now rewrite E3.
Qed.
Lemma sbi_honest (a : list (qcell p)) : forall ind xs ys, Forall2 qh a xs -> Forall2 hv ind ys -> length a = length ind ->
  onehot ys ->
  exists tr, sbi_cells F0 (combine a ind) = Some (flat3 tr) /\ hchain F0 tr xs ys /\
     map fst tr = map (fun t : qcell p * AV p => (fst t, Existing (snd t))) (combine a ind).
Proof.
  induction a as [|q a IH]; intros [|i ind] xs ys HA HI HL HZ; try discriminate; inversion HA as [|? x ? xs' Hx HA']; inversion HI as [|? y ? ys' Hy HI']; subst.
  - exists []. repeat split; auto. constructor.
  - inversion HZ as [|? HZ'|? HZ']; subst.
    + destruct (IH ind xs' ys' HA' HI') as (tr & E1 & E2 & E3); auto.
      exists ((q, Existing i, (0 + x * 0)%F) :: tr). cbn [combine sbi_cells]. rewrite (hv_val _ _ Hy).
      replace (Fis0 (0%F : Fp)) with true by reflexivity. rewrite E1.
      split; [cbn [option_map]; do 2 f_equal; cbn; do 4 f_equal; ring|]. split.
      * constructor; auto using qh_existing. now replace (0 + x * 0)%F with (F0 : Fp) by ring.
      * cbn. now rewrite E3.
    + destruct (sbi_zero (0 + x * 1)%F a ind xs' ys' HA' HI') as (tr & E1 & E2 & E3); auto.
      exists ((q, Existing i, (0 + x * 1)%F) :: tr). cbn [combine sbi_cells]. rewrite (hv_val _ _ Hy).
      replace (Fis0 (1%F : Fp)) with false by (symmetry; apply Fis0_false, F1_neq_0; auto).
      rewrite (qh_val _ _ Hx). replace x with (0 + x * 1)%F at 1 by ring. rewrite E1.
      split; [cbn [option_map]; do 2 f_equal; cbn; do 4 f_equal; ring|]. split.
      * constructor; auto using qh_existing.
      * cbn. now rewrite E3.
Qed.

Lemma select_by_indicator_comp (a : list (qcell p)) ind xs ys : Forall2 qh a xs -> Forall2 hv ind ys -> length a = length ind -> onehot ys ->
  comp (fun rho => Forall (q_ok rho) a /\ Forall (av_ok rho) ind) (select_by_indicator a ind) (fun o => hv o (dot xs ys)) (fun rho o => av_ok rho o).
Proof.
  intros HA HI HL HO. unfold select_by_indicator.
  destruct (sbi_honest a ind xs ys HA HI HL HO) as (tr & E1 & HC & Etr).
  eapply comp_lift_bind; [exact E1|].
  destruct (map_combine_fst Existing a ind HL) as [Ea Ei]. rewrite <- Etr in Ea, Ei. rewrite map_map in Ea, Ei.
  assert (Ltr : length tr = length a) by (rewrite <- (map_length fst tr), Etr, map_length, combine_length; lia).
  rewrite <- Ltr. intros s W.
  destruct (chain_run lb _ _ _ _ (Constant F0) s HC (qh_const _) W) as (s' & E2 & W2 & X2 & A2 & V2 & S2).
  destruct (hchain_vals _ _ _ _ HC (Constant F0) (qh_const _)) as (L1 & L2 & V3 & _).
  destruct (last_total s') as [x E3].
  { unfold alen. rewrite A2, app_length. cbn. lia. }
  exists x, s'. split; [unfold assign_region_last, bind; rewrite E2; exact E3|]. do 2 (split; auto).
  apply last_at in E3 as [_ A3]; auto.
  assert (La : alen s' = (alen s + S (3 * length tr))%nat).
  { unfold alen. rewrite A2, app_length, map_length. cbn [length]. rewrite flat3_length. lia. }
  split.
  - eapply at_off_hv; [exact A3|]. replace (alen s' - 1)%nat with (alen s + 3 * length tr)%nat by lia.
    rewrite V2 by (cbn [length]; rewrite flat3_length; lia). do 2 f_equal. rewrite V3 by lia. rewrite !firstn_all2 by lia. ring.
  - intros rho HAg HS [H1 H2]. split; [|eapply av_in_ok; eauto using at_off_in].
    apply S2; auto; [exact I|rewrite Ea; auto|rewrite Ei]. clear - H2. induction H2; cbn; constructor; auto.
Qed.

(** selecting with the one-hot indicator of position [i] *)
Lemma dot_onehot (xs : list Fp) : forall k i, dot xs (map (fun j => fbool (Z.of_nat i =? Z.of_nat j)) (seq k (length xs))) =
  if Nat.leb k i then nth (i - k) xs F0 else F0.
Proof.
  induction xs as [|x xs IH]; intros k i.
  - cbn. destruct (Nat.leb k i); auto. destruct (i - k)%nat; reflexivity.
  - cbn [length seq map dot]. rewrite IH. destruct (Nat.leb_spec k i).
    + destruct (Nat.leb_spec (S k) i).
      * replace (Z.of_nat i =? Z.of_nat k) with false by (symmetry; apply Z.eqb_neq; lia). cbn [fbool].
        replace (i - k)%nat with (S (i - S k)) by lia. cbn [nth]. ring.
      * replace (Z.of_nat i =? Z.of_nat k) with true by (symmetry; apply Z.eqb_eq; lia). cbn [fbool].
        replace (i - k)%nat with O by lia. cbn [nth]. ring.
    + destruct (Nat.leb_spec (S k) i); [lia|].
      replace (Z.of_nat i =? Z.of_nat k) with false by (symmetry; apply Z.eqb_neq; lia). cbn [fbool]. ring.
Qed.
Lemma idx_ind_eq x len : Z.of_nat len <= Z.pos p ->
  idx_ind x len = map (fun j => fbool (Z.of_nat (Z.to_nat (val x)) =? Z.of_nat j)) (seq 0 len).
Proof.
  intros HL. unfold idx_ind. apply map_ext_in. intros j Hj. apply in_seq in Hj. unfold Feqb. rewrite val_of_Z_small by lia.
  rewrite Z2Nat.id by apply val_bounds. reflexivity.
Qed.
Lemma dot_idx_ind (xs : list Fp) x : Z.of_nat (length xs) <= Z.pos p ->
  dot xs (idx_ind x (length xs)) = nth (Z.to_nat (val x)) xs F0.
Proof. intros HL. rewrite idx_ind_eq by auto. rewrite dot_onehot. cbn [Nat.leb]. now rewrite Nat.sub_0_r. Qed.
Lemma idx_onehot k i n : onehot (map (fun j => fbool (Z.of_nat i =? Z.of_nat j)) (seq k n)).
Proof.
  revert k. induction n as [|n IH]; intros k; cbn [seq map]; [constructor|].
  destruct (Z.eqb_spec (Z.of_nat i) (Z.of_nat k)); cbn [fbool]; [|constructor; auto].
  apply oh_one. rewrite Forall_forall. intros y Hy. apply in_map_iff in Hy as (j & <- & Hj). apply in_seq in Hj.
  replace (Z.of_nat i =? Z.of_nat j) with false by (symmetry; apply Z.eqb_neq; lia). reflexivity.
Qed.

Lemma select_from_idx_sound (cells : list (qcell p)) (idx : qcell p) : Z.of_nat (length cells) <= Z.pos p ->
  sound (select_from_idx cells idx) (fun _ => True)
  (fun sg o => exists xs x, Forall2 (qsem sg) cells xs /\ qsem sg idx x /\ avs sg o = nth (Z.to_nat (val x)) xs F0).
Proof.
  intros HL. unfold select_from_idx. eapply sound_bind; [apply idx_to_indicator_sound|]. intros ind Hi. cbv beta in Hi.
  eapply sound_weaken; [apply select_by_indicator_sound; lia|auto|].
  intros sg o _ (xs & Fx & Ho) (x & Hx & Hd). exists xs, x. split; auto. split; auto.
  rewrite Ho, Hd, (Forall2_len _ _ _ Fx). apply dot_idx_ind. rewrite <- (Forall2_len _ _ _ Fx). auto.
Qed.
Lemma select_from_idx_comp (cells : list (qcell p)) (idx : qcell p) xs x : Z.of_nat (length cells) <= Z.pos p ->
  Forall2 qh cells xs -> qh idx x ->
  comp (fun rho => Forall (q_ok rho) cells /\ q_ok rho idx) (select_from_idx cells idx)
   (fun o => hv o (nth (Z.to_nat (val x)) xs F0)) (fun rho o => av_ok rho o).
Proof.
  intros HL HC Hx. unfold select_from_idx. eapply comp_bind; [apply (idx_to_indicator_comp idx x (length cells) Hx)|tauto|].
  intros ind Hi. cbv beta in Hi. pose proof (Forall2_len _ _ _ HC) as Lc.
  rewrite <- dot_idx_ind by lia. rewrite <- Lc.
  eapply comp_weaken; [apply (select_by_indicator_comp cells ind xs _ HC Hi)|tauto|auto|auto].
  - rewrite (Forall2_len _ _ _ Hi). unfold idx_ind. now rewrite map_length, seq_length.
  - rewrite idx_ind_eq by auto. apply idx_onehot.
Qed.

Lemma dot_onehot_nth (xs ys : list Fp) i : length xs = length ys -> (forall j, (j < length ys)%nat -> nth j ys F0 = fbool (Nat.eqb j i)) ->
  dot xs ys = nth i xs F0.
Proof.
  intros HL H. assert (ys = map (fun j => fbool (Z.of_nat i =? Z.of_nat j)) (seq 0 (length xs))) as ->.
  { apply nth_ext with (d := F0) (d' := fbool (Z.of_nat i =? Z.of_nat 0)).
    - now rewrite map_length, seq_length.
    - intros n Hn. rewrite H by auto. rewrite (map_nth (fun j => fbool (Z.of_nat i =? Z.of_nat j))), seq_nth by lia. cbn [Nat.add]. f_equal.
      destruct (Nat.eqb_spec n i); symmetry; [apply Z.eqb_eq|apply Z.eqb_neq]; lia. }
  rewrite dot_onehot. cbn [Nat.leb]. now rewrite Nat.sub_0_r.
Qed.

(** ** select_array_by_indicator *)
Lemma column_spec {A} (j : nat) (m : list (list A)) c : column j m = Some c -> Forall2 (fun r x => nth_error r j = Some x) m c.
Proof.
  revert c. induction m as [|r m IH]; intros c H; cbn in H.
  - injection H as <-. constructor.
  - destruct (nth_error r j) as [x|] eqn:E; [|discriminate]. fold (column j m) in H. destruct (column j m) as [l|]; [|discriminate].
    injection H as <-. constructor; auto.
Qed.
Lemma column_total {A} (j : nat) (m : list (list A)) : Forall (fun r => (j < length r)%nat) m -> exists c, column j m = Some c.
Proof.
  induction 1 as [|r m Hr HF [c IH]]; cbn; [eauto|]. fold (column j m). rewrite IH.
  destruct (nth_error r j) eqn:E; [eauto|]. apply nth_error_None in E. lia.
Qed.
(** the j-th output is the inner product of the j-th column with the indicator *)
Definition vcol (j : nat) (m : list (list Fp)) : list Fp := map (fun r => nth j r F0) m.

Lemma select_array_sound (m : list (list (AV p))) (ind : list (AV p)) : length m = length ind ->
  sound (select_array_by_indicator m ind) (fun o => length o = length (hd [] m))
  (fun sg o => map (avs sg) o = map (fun j => dot (vcol j (map (map (avs sg)) m)) (map (avs sg) ind)) (seq 0 (length (hd [] m)))).
Proof.
  intros HL. unfold select_array_by_indicator. destruct m as [|r0 m]; [apply sound_panic|].
  eapply sound_weaken.
  - apply (sound_mapM lb _ (fun _ _ => True) (fun sg j o => avs sg o = dot (vcol j (map (map (avs sg)) (r0 :: m))) (map (avs sg) ind))).
    intros j _. apply sound_lift_bind. intros c Ec. apply column_spec in Ec.
    eapply sound_weaken; [apply select_by_indicator_sound; rewrite map_length, <- (Forall2_len _ _ _ Ec); auto|auto|].
    intros sg o _ (xs & Fx & Ho). rewrite Ho. f_equal. clear - Ec Fx. revert xs Fx.
    induction Ec as [|r x l l' H1 H2 IH]; intros xs Fx; inversion Fx; subst; [reflexivity|]. cbn. rewrite (IH _ H5).
    f_equal. rewrite (nth_map_avs sg r j x H1). auto.
  - intros o H. apply Forall2_len in H. rewrite seq_length in H. auto.
  - intros sg o _ H. cbn [hd]. clear - H. revert H. generalize (seq 0 (length r0)). intros l H. induction H as [|j y l l' E1 E2 IH]; [reflexivity|]. cbn [map] in *. rewrite IH, E1. reflexivity.
Qed.
Lemma select_array_comp (m : list (list (AV p))) ind vm ys : m <> [] -> length m = length ind ->
  Forall2 (Forall2 hv) m vm -> Forall2 hv ind ys -> onehot ys -> Forall (fun r => length r = length (hd [] m)) m ->
  comp (fun rho => Forall (Forall (av_ok rho)) m /\ Forall (av_ok rho) ind) (select_array_by_indicator m ind)
   (fun o => Forall2 hv o (map (fun j => dot (vcol j vm) ys) (seq 0 (length (hd [] m))))) (fun rho o => Forall (av_ok rho) o).
Proof.
  intros Hne HL HM HI HO HR. unfold select_array_by_indicator. destruct m as [|r0 m]; [congruence|].
  eapply comp_weaken.
  - apply (comp_mapM lb _ (fun j o => hv o (dot (vcol j vm) ys)) (fun rho o => av_ok rho o) _
       (fun rho => Forall (Forall (av_ok rho)) (r0 :: m) /\ Forall (av_ok rho) ind)).
    intros j Hj. apply in_seq in Hj. destruct (column_total j (r0 :: m)) as [c Ec].
    { rewrite Forall_forall in *. intros r Hr. rewrite (HR r Hr). cbn [hd]. lia. }
    eapply comp_lift_bind; [exact Ec|]. apply column_spec in Ec.
    eapply comp_weaken; [apply (select_by_indicator_comp (map Existing c) ind (vcol j vm) ys)|..]; auto.
    + clear - Ec HM. revert vm HM. induction Ec as [|r x l l' H1 H2 IH]; intros vm HM; inversion HM; subst; [constructor|].
      cbn. constructor; [|apply IH; auto]. apply qh_existing.
      destruct (Forall2_nth_l _ _ _ H3 _ _ H1) as (v & Ev & Hv). now rewrite (nth_error_nth _ _ _ Ev).
    + rewrite map_length, <- (Forall2_len _ _ _ Ec). auto.
    + intros rho [H1 H2]. split; auto. clear - Ec H1. induction Ec as [|r x l l' E1 E2 IH]; cbn; [constructor|].
      inversion H1; subst. constructor; auto. cbn. eapply Forall_nth_e; eauto.
  - auto.
  - intros o H. cbn [hd]. clear - H. induction H; cbn; constructor; auto.
  - auto.
Qed.
End Bits.
