(** The context invariant (Pres.v) is kept by every GateChip operation. *)
From Coq Require Import ZArith Lia List Bool.
From Verif Require Import Field Spec Context ContextProofs Utils Gate Range RelGate Pres.
Import ListNotations.
Local Open Scope Z_scope.
Local Open Scope monad_scope.

Ltac sub := unfold incl in *; unfold qavs in *; cbn [flat_map qav app In fst snd] in *; rewrite ?app_nil_r in *;
  let x := fresh in let H := fresh in intros x H; repeat (rewrite in_app_iff in * || cbn [In] in * ); intuition (subst; eauto).
Ltac offs := split; [let o := fresh in let H := fresh in intros o H; cbn [In length] in *; intuition (subst; cbn; lia)
                    |let i := fresh in let j := fresh in intros i j ? ?; cbn [In] in *; intuition (subst; lia)].
Ltac eqsok := let e := fresh in let H := fresh in intros e H; cbn [In length] in *; intuition (subst; cbn; lia).
Ltac pprim := match goal with
  | |- pres _ (ret _) _ => apply pres_ret; solve [sub]
  | |- pres _ (assign_region _ _) _ => apply pres_region; [sub|offs]
  | |- pres _ (assign_region_last _ _) _ => apply pres_region_last; [sub|offs]
  | |- pres _ (assign_region_smart _ _ _) _ => apply pres_smart; [sub|offs|eqsok]
  | |- pres _ (ctx_get _) _ => apply pres_get
  | |- pres _ ctx_last _ => apply pres_last
  | |- pres _ ctx_len _ => apply pres_len
  end.
Ltac ps := repeat match goal with
  | |- pres _ (bind (lift _) _) _ => apply pres_lift_bind; intros ? _
  | |- pres _ (bind (assert_ _) _) _ => apply pres_assert_bind; intros _
  | |- pres _ (bind _ _) _ => eapply pres_bind; [solve [pprim]|intros ?; cbn [app]]
  end; try pprim.

Section PresGate.
Context {p : positive}.
Notation Fp := (F p).
Notation qc := (qcell p).
Notation AV := (AV p).
Notation O1 := (fun a : AV => [a]).
Implicit Types (L : list AV) (a b c : qc).

Lemma pres_add L a b : incl (qav a) L -> incl (qav b) L -> pres L (add a b) O1.
Proof. intros. unfold add. ps. Qed.
Lemma pres_sub_ L a b : incl (qav a) L -> incl (qav b) L -> pres L (sub a b) O1.
Proof. intros. unfold sub. ps. Qed.
Lemma pres_sub_mul L a b c : incl (qav a) L -> incl (qav b) L -> incl (qav c) L -> pres L (sub_mul a b c) O1.
Proof. intros. unfold sub_mul. ps. Qed.
Lemma pres_neg L a : incl (qav a) L -> pres L (neg a) O1.
Proof. intros. unfold neg. ps. Qed.
Lemma pres_mul L a b : incl (qav a) L -> incl (qav b) L -> pres L (mul a b) O1.
Proof. intros. unfold mul. ps. Qed.
Lemma pres_mul_add L a b c : incl (qav a) L -> incl (qav b) L -> incl (qav c) L -> pres L (mul_add a b c) O1.
Proof. intros. unfold mul_add. ps. Qed.
Lemma pres_mul_not L a b : incl (qav a) L -> incl (qav b) L -> pres L (mul_not a b) O1.
Proof. intros. unfold mul_not. ps. Qed.
Lemma pres_assert_bit L (x : AV) : In x L -> pres L (assert_bit x) (fun _ => []).
Proof. intros. unfold assert_bit. ps. Qed.
Lemma pres_div_unsafe L a b : incl (qav a) L -> incl (qav b) L -> pres L (div_unsafe a b) O1.
Proof. intros. unfold div_unsafe. ps. Qed.
Lemma pres_or L a b : incl (qav a) L -> incl (qav b) L -> pres L (or a b) O1.
Proof. intros. unfold or. ps. Qed.
Lemma pres_xor L a b : incl (qav a) L -> incl (qav b) L -> pres L (xor a b) O1.
Proof. intros. unfold xor. ps. Qed.
Lemma pres_select L a b c : incl (qav a) L -> incl (qav b) L -> incl (qav c) L -> pres L (select a b c) O1.
Proof. intros. unfold select. ps. Qed.
Lemma pres_or_and L a b c : incl (qav a) L -> incl (qav b) L -> incl (qav c) L -> pres L (or_and a b c) O1.
Proof. intros. unfold or_and. ps. Qed.

Lemma offs3_ok n k : (3 * k < n)%nat -> offs_ok n (offs3 k).
Proof.
  intros H. unfold offs3. split.
  - intros o Ho. apply in_map_iff in Ho as (i & <- & Hi). apply in_seq in Hi. lia.
  - intros i j Hi Hj. apply in_map_iff in Hi as (i' & <- & Hi). apply in_map_iff in Hj as (j' & <- & Hj). lia.
Qed.
Lemma sum_cells_in l : forall (s : Fp) k, sum_cells s l = Some k -> incl (qavs k) (qavs l) /\ length k = (3 * length l)%nat.
Proof.
  induction l as [|x l IH]; intros s k E; cbn [sum_cells] in E. { injection E as <-. split; auto. apply incl_refl. }
  destruct (q_value x); [|discriminate]. destruct (sum_cells _ l) as [k'|] eqn:E'; [|discriminate]. injection E as <-. apply IH in E' as [H1 H2].
  split; [|cbn; lia]. unfold qavs in *. cbn [flat_map qav app]. apply incl_app; [apply incl_appl, incl_refl|now apply incl_appr].
Qed.
Lemma qavs_cons a l L : incl (qavs (a :: l)) L -> incl (qav a) L /\ incl (qavs l) L.
Proof. unfold qavs. cbn. intros H. split; intros x Hx; apply H; apply in_app_iff; auto. Qed.
Lemma incl_qavs_cons a l L : incl (qav a) L -> incl (qavs l) L -> incl (qavs (a :: l)) L.
Proof. intros. unfold qavs. cbn. now apply incl_app. Qed.
Lemma pres_sum L l : incl (qavs l) L -> pres L (sum l) O1.
Proof.
  intros H. destruct l as [|a [|b l]]; cbn [sum]; [apply pres_load_zero|ps|].
  apply pres_lift_bind; intros s0 _. apply pres_lift_bind. intros k E. apply sum_cells_in in E as [H1 H2].
  apply qavs_cons in H as [Ha Hl]. apply pres_region_last.
  - apply incl_qavs_cons; auto. eapply incl_tran; eauto.
  - apply offs3_ok. cbn [length] in *. lia.
Qed.
Lemma flat_map_id (l : list AV) : flat_map (fun x : AV => [x]) l = l.
Proof. induction l; cbn; congruence. Qed.
Lemma pres_mapM1 {A} L (fn : A -> M p AV) l : (forall x, In x l -> pres L (fn x) O1) -> pres L (mapM fn l) (fun l => l).
Proof. intros. eapply pres_weaken; [apply pres_mapM; eauto|apply incl_refl|]. intros. cbv beta. rewrite flat_map_id. apply incl_refl. Qed.
Lemma pres_partial_sums L l : incl (qavs l) L -> pres L (partial_sums l) (fun l => l).
Proof.
  intros H. destruct l as [|a [|b l]]; cbn [partial_sums].
  - eapply pres_bind; [apply pres_load_zero|]. intros z. ps.
  - ps.
  - apply pres_lift_bind; intros s0 _. apply pres_lift_bind. intros k E. apply sum_cells_in in E as [H1 H2].
    apply qavs_cons in H as [Ha Hl]. eapply pres_bind. { apply pres_region.
    + apply incl_qavs_cons; auto. eapply incl_tran; eauto.
    + apply offs3_ok. cbn [length] in *. lia. }
    intros ?. apply pres_mapM1. intros. apply pres_get.
Qed.
Lemma pres_acc_prod ab : forall L x, In x L -> incl (qavs (map fst ab)) L -> incl (qavs (map snd ab)) L -> pres L (acc_prod x ab) (fun l => l).
Proof.
  induction ab as [|[a b] ab IH]; intros L x Hx H1 H2; cbn [acc_prod map fst snd] in *; [ps|].
  apply qavs_cons in H1 as [H1 H1']. apply qavs_cons in H2 as [H2 H2'].
  eapply pres_bind; [apply pres_mul_add; auto; sub|]. intros y. eapply pres_bind. { apply IH; [now left|now apply incl_appr|now apply incl_appr]. }
  intros l. ps.
Qed.
Lemma incl_combine (a b : list qc) L : incl (qavs a) L -> incl (qavs b) L -> incl (qavs (map fst (combine a b))) L /\ incl (qavs (map snd (combine a b))) L.
Proof.
  revert b. induction a as [|x a IH]; intros [|y b] Ha Hb; cbn; try (split; intros ? []). apply qavs_cons in Ha as [Hx Ha]. apply qavs_cons in Hb as [Hy Hb].
  destruct (IH b Ha Hb). split; now apply incl_qavs_cons.
Qed.
Lemma pres_accumulated_product L (a b : list qc) : incl (qavs a) L -> incl (qavs b) L -> pres L (accumulated_product a b) (fun l => l).
Proof.
  intros Ha Hb. unfold accumulated_product. destruct b as [|b0 b]; [ps|]. apply qavs_cons in Hb as [Hb0 Hb]. destruct (incl_combine a b L Ha Hb) as [H1 H2].
  eapply pres_bind. { apply pres_region_last; [|apply offs_ok_nil]. apply incl_qavs_cons; auto. intros ? []. }
  intros x. eapply pres_bind; [apply pres_acc_prod; [now left|now apply incl_appr|now apply incl_appr]|]. intros l. ps.
Qed.

Lemma ip_cells_in ab : forall (s : Fp) k, ip_cells s ab = Some k -> length k = (3 * length ab)%nat /\
  forall L, incl (qavs (map fst ab)) L -> incl (qavs (map snd ab)) L -> incl (qavs k) L.
Proof.
  induction ab as [|[a b] ab IH]; intros s k E; cbn [ip_cells] in E. { injection E as <-. split; [auto|]. intros ? ? ? ? []. }
  destruct (q_value a); [|discriminate]. destruct (q_value b); [|discriminate]. destruct (ip_cells _ ab) as [k'|] eqn:E'; [|discriminate]. injection E as <-.
  apply IH in E' as [H1 H2]. split; [cbn; lia|]. intros L Ha Hb. cbn [map fst snd] in *. apply qavs_cons in Ha as [Ha Ha']. apply qavs_cons in Hb as [Hb Hb'].
  repeat apply incl_qavs_cons; auto. intros ? [].
Qed.
Lemma ip_region_in (a b k : list qc) : ip_region a b = Some k -> (exists n, length k = (1 + 3 * n)%nat) /\ forall L, incl (qavs a) L -> incl (qavs b) L -> incl (qavs k) L.
Proof.
  unfold ip_region. destruct (starts_with_one b).
  - destruct a as [|a0 a]; [discriminate|]. destruct (q_value a0); [|discriminate]. destruct (ip_cells _ _) as [k'|] eqn:E; [|discriminate]. intros [= <-].
    apply ip_cells_in in E as [H1 H2]. split; [cbn [length]; eexists; rewrite H1; reflexivity|]. intros L Ha Hb. apply qavs_cons in Ha as [Ha Ha'].
    assert (Hb' : incl (qavs (tl b)) L) by (destruct b; cbn; auto; apply qavs_cons in Hb; tauto). destruct (incl_combine a (tl b) L Ha' Hb').
    apply incl_qavs_cons; auto.
  - destruct (ip_cells _ _) as [k'|] eqn:E; [|discriminate]. intros [= <-]. apply ip_cells_in in E as [H1 H2].
    split; [cbn [length]; eexists; rewrite H1; reflexivity|]. intros L Ha Hb. destruct (incl_combine a b L Ha Hb). apply incl_qavs_cons; auto. intros ? [].
Qed.
Lemma pres_ip_simple L (a b : list qc) : incl (qavs a) L -> incl (qavs b) L -> pres L (inner_product_simple a b) (fun _ => []).
Proof.
  intros Ha Hb. unfold inner_product_simple. apply pres_lift_bind. intros k E. apply ip_region_in in E as [[n Hn] Hk].
  assert (K : pres L (assign_region k (offs3 (length k / 3))) (fun _ => [])).
  { apply pres_region; auto. apply offs3_ok. pose proof (Nat.div_mod (length k) 3). assert (length k mod 3 = 1)%nat by (rewrite Hn, Nat.mul_comm, Nat.mod_add; auto). lia. }
  intros s u s' HI HF E. apply bind_inv in E as (w & s0 & E0 & E). unfold ctx_wgo in E0. injection E0 as <- <-. rewrite (wf_wgo _ (i_wf _ HI)) in E.
  revert E. apply (pres_bind L _ _ (fun _ => []) (fun _ => []) K); auto. intros. ps.
Qed.
Lemma pres_inner_product L (a b : list qc) : incl (qavs a) L -> incl (qavs b) L -> pres L (inner_product a b) O1.
Proof. intros. unfold inner_product. eapply pres_bind; [now apply pres_ip_simple|]. intros. ps. Qed.
Lemma pres_inner_product_left_last L (a b : list qc) : incl (qavs a) L -> incl (qavs b) L -> pres L (inner_product_left_last a b) (fun x => [fst x; snd x]).
Proof.
  intros. unfold inner_product_left_last. eapply pres_bind; [apply pres_len|]. intros row. eapply pres_bind; [now apply pres_ip_simple|]. intros one. cbn [app].
  eapply (pres_bind L _ _ O1). { destruct one; [destruct (Nat.eqb _ 1)|]; ps. } intros x. ps.
Qed.
Lemma pres_inner_product_left L (a b : list qc) : incl (qavs a) L -> incl (qavs b) L -> pres L (inner_product_left a b) (fun x => fst x :: snd x).
Proof.
  intros. unfold inner_product_left. eapply pres_bind; [apply pres_len|]. intros row. eapply pres_bind; [now apply pres_ip_simple|]. intros one. cbn [app].
  eapply (pres_bind L _ _ (fun l => l)). { apply pres_mapM1. intros i _. destruct one; [destruct (Nat.eqb _ 0)|]; apply pres_get. } intros x. ps.
Qed.
Lemma pres_inner_product_with_sums L (a b : list qc) : incl (qavs a) L -> incl (qavs b) L -> pres L (inner_product_with_sums a b) (fun l => l).
Proof.
  intros. unfold inner_product_with_sums. eapply pres_bind; [apply pres_len|]. intros row. eapply pres_bind; [now apply pres_ip_simple|]. intros one. cbn [app].
  eapply pres_bind; [apply pres_len|]. intros len. apply pres_mapM1. intros. apply pres_get.
Qed.
Definition tavs (l : list (Fp * qc * qc)) : list AV := flat_map (fun t => qav (snd (fst t)) ++ qav (snd t)) l.
Definition pavs (l : list (qc * qc)) : list AV := flat_map (fun t => qav (fst t) ++ qav (snd t)) l.
Lemma pres_spc_terms l : forall L, incl (tavs l) L -> pres L (spc_terms l) pavs.
Proof.
  induction l as [|[[c a] b] l IH]; intros L H; cbn [spc_terms]; [ps|].
  assert (Hab : incl (qav a) L /\ incl (qav b) L /\ incl (tavs l) L).
  { unfold tavs in H. cbn in H. split; [|split]; intros x Hx; apply H; rewrite !in_app_iff; auto. }
  destruct Hab as (Ha & Hb & Hl). destruct (Feqb c F1).
  { eapply pres_bind; [apply IH; auto|]. intros k. apply pres_ret. cbn. apply incl_app; [apply incl_app; now apply incl_appr|apply incl_appl, incl_refl]. }
  destruct (Feqb c F0); cbn [negb]; [now apply IH|]. eapply pres_bind; [apply pres_mul; auto|]. intros y.
  eapply pres_bind; [apply IH; now apply incl_appr|]. intros k. apply pres_ret. cbn. intros x [Hx|Hx]; rewrite ?in_app_iff; cbn; auto.
Qed.
Lemma pres_sum_products L l v : incl (tavs l) L -> incl (qav v) L -> pres L (sum_products_with_coeff_and_var l v) O1.
Proof.
  intros Hl Hv. unfold sum_products_with_coeff_and_var. eapply pres_bind; [now apply pres_spc_terms|]. intros k.
  assert (K : incl (qavs (map fst k)) (pavs k) /\ incl (qavs (map snd k)) (pavs k)).
  { induction k as [|[x y] k [IH1 IH2]]; cbn; [split; apply incl_refl|]. split; apply incl_qavs_cons.
    - intros z Hz. rewrite !in_app_iff. auto.
    - apply incl_appr; auto.
    - intros z Hz. rewrite !in_app_iff. auto.
    - apply incl_appr; auto. }
  destruct K. apply pres_inner_product; apply incl_qavs_cons; auto; try (now apply incl_appr); try (now apply incl_appl).
Qed.

Lemma pres_is_zero L (x : AV) : In x L -> pres L (is_zero x) O1.
Proof. intros. unfold is_zero. apply pres_lift_bind; intros v _. destruct (is_zero_wit v). ps. Qed.
Lemma pres_is_equal L a b : incl (qav a) L -> incl (qav b) L -> pres L (is_equal a b) O1.
Proof. intros. unfold is_equal. eapply pres_bind; [now apply pres_sub_|]. intros. apply pres_is_zero. now left. Qed.
Lemma pres_lift_nth (l : list AV) L i : incl l L -> pres L (lift (nth_error l i)) O1.
Proof. intros H. apply pres_lift. intros a E. apply nth_error_In in E. intros x [<-|[]]. auto. Qed.
Lemma pres_bti_step L (bit : AV) off i (l : list AV) : In bit L -> incl l L -> pres L (bti_step bit off l i) (fun l => l).
Proof.
  intros Hb Hl. unfold bti_step. eapply pres_bind; [now apply pres_lift_nth|]. intros x. cbn [app].
  apply pres_lift_bind; intros v _. apply pres_lift_bind; intros w _.
  eapply pres_bind; [pprim|intros ?; cbn [app]]. eapply pres_bind; [pprim|intros yy; cbn [app]].
  eapply pres_bind. { apply (pres_lift_nth (l ++ [yy])). intros y Hy. apply in_app_iff in Hy as [Hy|[<-|[]]]; cbn; auto. }
  intros y. cbn [app]. eapply pres_bind; [apply pres_mul; sub|]. intros z. cbn [app]. apply pres_ret. intros w' Hw. rewrite !in_app_iff in Hw. cbn in *. intuition.
Qed.
Lemma pres_bits_to_indicator L (l : list AV) : incl l L -> pres L (bits_to_indicator l) (fun l => l).
Proof.
  intros Hl. unfold bits_to_indicator. destruct (rev l) as [|x r] eqn:E; [apply pres_panic|].
  assert (Hx : In x L /\ incl r L). { split; [|intros y Hy]; apply Hl, in_rev; rewrite E; cbn; auto. } destruct Hx as [Hx Hr]. ps.
  eapply (pres_bind _ _ _ (fun st => fst st)).
  - apply pres_foldM with (fb := fun st : list AV * nat => fst st); [|cbn; sub]. intros [ind off] [k bit] Hin. apply in_combine_r in Hin. cbn [fst].
    unfold bti_round. cbn [fst snd]. eapply (pres_bind _ _ _ (fun l => l)).
    { apply pres_foldM with (fb := fun l : list AV => l); [|sub]. intros ind' j _. apply pres_bti_step; [|sub]. rewrite !in_app_iff. cbn. right. right. auto. }
    intros ind'. apply pres_ret. cbn [fst]. sub.
  - intros [ind off]. cbn [fst]. ps. apply pres_ret. apply incl_appl. intros y Hy. rewrite <- (firstn_skipn (2 ^ length l - 2) ind). apply in_app_iff; auto.
Qed.
Lemma pres_idx_to_indicator L a n : incl (qav a) L -> pres L (idx_to_indicator a n) (fun l => l).
Proof.
  intros Ha. unfold idx_to_indicator. destruct n; [ps|]. apply pres_lift_bind; intros v _. destruct (is_zero_wit v). ps.
  eapply pres_bind. { apply pres_mapM1. intros. apply pres_is_equal; sub. } intros l. cbv beta. apply pres_ret. sub.
Qed.
Lemma sbi_cells_in ai : forall (s : Fp) k, sbi_cells s ai = Some k -> length k = (3 * length ai)%nat /\
  forall L, incl (qavs (map fst ai)) L -> incl (map snd ai) L -> incl (qavs k) L.
Proof.
  induction ai as [|[a i] ai IH]; intros s k E; cbn [sbi_cells] in E. { injection E as <-. split; auto. }
  destruct (av_value i) as [v|]; [|discriminate]. destruct (if Fis0 v then _ else _) as [w|]; [|discriminate].
  destruct (sbi_cells w ai) as [k'|] eqn:E'; [|discriminate]. injection E as <-. apply IH in E' as [H1 H2].
  split; [cbn; lia|]. intros L Ha Hb. cbn [map fst snd] in *. apply qavs_cons in Ha as [Ha Ha']. apply incl_cons_inv in Hb as [Hb Hb'].
  repeat apply incl_qavs_cons; auto; [intros x [<-|[]]; auto|intros ? []].
Qed.
Lemma pres_select_by_indicator L (l : list qc) (ind : list AV) : (length l <= length ind)%nat -> incl (qavs l) L -> incl ind L -> pres L (select_by_indicator l ind) O1.
Proof.
  intros HL Hl Hi. unfold select_by_indicator. apply pres_lift_bind. intros k E. apply sbi_cells_in in E as [H1 H2].
  rewrite combine_length, Nat.min_l in H1 by auto. apply pres_region_last.
  - apply incl_qavs_cons; [intros ? []|]. apply H2.
    + clear -Hl. revert ind. induction l as [|x l IH]; intros [|y ind]; cbn; try (intros ? []; fail). apply qavs_cons in Hl as [Hx Hl]. apply incl_qavs_cons; auto.
    + intros x Hx. apply in_map_iff in Hx as ([u v] & <- & Hin). apply in_combine_r in Hin. auto.
  - apply offs3_ok. cbn [length]. lia.
Qed.
(** the result of [idx_to_indicator] has the requested length *)
Lemma mapM_len {A B} (fn : A -> M p B) l : forall (s : st p) r s', mapM fn l s = Some (r, s') -> length r = length l.
Proof.
  induction l as [|x l IH]; intros s r s' E; cbn [mapM] in E. { now injection E as <- <-. }
  apply bind_inv in E as (y & s1 & _ & E). apply bind_inv in E as (ys & s2 & E1 & E). injection E as <- <-. cbn. f_equal. eauto.
Qed.
Lemma idx_len a n (s : st p) r s' : idx_to_indicator a n s = Some (r, s') -> length r = n.
Proof.
  unfold idx_to_indicator. destruct n; [intros [= <- <-]; auto|]. intros E. apply bind_inv in E as (v & s1 & _ & E). destruct (is_zero_wit v).
  apply bind_inv in E as (? & ? & _ & E). apply bind_inv in E as (? & ? & _ & E). apply bind_inv in E as (? & ? & _ & E). apply bind_inv in E as (? & ? & E1 & E).
  injection E as <- <-. apply mapM_len in E1. rewrite seq_length in E1. cbn. lia.
Qed.
Lemma pres_bind_P {A B} L (m : M p A) (k : A -> M p B) (P : A -> Prop) f g : pres L m f -> (forall s (a : A) s', m s = Some (a, s') -> P a) ->
  (forall (a : A), P a -> pres (f a ++ L) (k a) g) -> pres L (bind m k) g.
Proof.
  intros H1 HP H2 s b s' HI HL E. apply bind_inv in E as (a & s1 & E1 & E2). destruct (H1 s a s1 HI HL E1) as (I1 & X1 & F1).
  destruct (H2 a (HP _ _ _ E1) s1 b s' I1) as (I2 & X2 & F2); auto. { apply Forall_app. split; auto. eapply Fin_mono; eauto. }
  split; auto. split; auto. eapply ext_trans; eauto.
Qed.
Lemma pres_select_from_idx L (l : list qc) i : incl (qavs l) L -> incl (qav i) L -> pres L (select_from_idx l i) O1.
Proof.
  intros Hl Hi. unfold select_from_idx. eapply pres_bind_P with (P := fun r => length r = length l); [now apply pres_idx_to_indicator|intros; eapply idx_len; eauto|].
  intros ind Hlen. apply pres_select_by_indicator; [lia|now apply incl_appr|now apply incl_appl].
Qed.
Lemma column_in j (m : list (list AV)) L k : column j m = Some k -> incl (concat m) L -> incl k L /\ length k = length m.
Proof.
  revert k. induction m as [|r m IH]; intros k; cbn [column fold_right]. { intros [= <-] _. split; auto. intros ? []. }
  fold (column j m). destruct (nth_error r j) as [x|] eqn:Ex; [|discriminate]. destruct (column j m) as [k'|] eqn:E; [|discriminate]. intros [= <-] H. cbn in H.
  destruct (IH k' eq_refl) as [H1 H2]. { intros y Hy. apply H, in_app_iff; auto. } split; [|cbn; congruence].
  intros y [<-|Hy]; auto. apply H, in_app_iff. left. eapply nth_error_In; eauto.
Qed.
Lemma qavs_existing (l : list AV) : qavs (map Existing l) = l.
Proof. unfold qavs. induction l; cbn; congruence. Qed.
Lemma pres_select_array L (m : list (list AV)) (ind : list AV) : (length m <= length ind)%nat -> incl (concat m) L -> incl ind L ->
  pres L (select_array_by_indicator m ind) (fun l => l).
Proof.
  intros HL Hm Hi. unfold select_array_by_indicator. destruct m as [|r m]; [apply pres_panic|]. apply pres_mapM1. intros j _.
  apply pres_lift_bind. intros k E. apply (column_in _ _ L) in E as [H1 H2]; auto. apply pres_select_by_indicator; auto; [rewrite map_length; lia|now rewrite qavs_existing].
Qed.
Lemma qavs_wit {A} (f : A -> Fp) (l : list A) : qavs (map (fun x => Witness (f x)) l) = [].
Proof. induction l; cbn; auto. Qed.
Lemma qavs_wit0 (l : list Fp) : qavs (map Witness l) = [].
Proof. induction l; cbn; auto. Qed.
Lemma qavs_const (l : list Fp) : qavs (map Constant l) = [].
Proof. induction l; cbn; auto. Qed.
Lemma pres_num_to_bits L (a : AV) n : In a L -> pres L (num_to_bits a n) (fun l => l).
Proof.
  intros Ha. unfold num_to_bits. ps. eapply pres_bind. { apply pres_inner_product; [rewrite qavs_wit|rewrite qavs_const]; intros ? []. }
  intros acc. cbn [app]. eapply pres_bind; [apply pres_constrain_equal; cbn; auto|]. intros ?. cbn [app]. ps.
  eapply pres_bind; [apply pres_mapM1; intros; apply pres_get|]. intros bs. cbv beta. eapply pres_bind.
  { apply pres_iterM. intros x Hx. apply pres_assert_bit. rewrite in_app_iff. cbn in *. intuition. }
  intros ?. apply pres_ret. sub.
Qed.
Lemma pres_bits_to_num L (l : list AV) : incl l L -> pres L (bits_to_num l) O1.
Proof. intros. unfold bits_to_num. ps. apply pres_inner_product; [now rewrite qavs_existing|rewrite qavs_const; intros ? []]. Qed.
Lemma pres_pow_var L (a e : AV) n : In a L -> In e L -> pres L (pow_var a e n) O1.
Proof.
  intros Ha He. unfold pow_var. eapply pres_bind; [now apply pres_num_to_bits|]. intros bits. cbv beta. eapply pres_bind; [apply pres_load_constant|]. intros acc. cbn [app].
  apply pres_foldM with (fb := O1); [|sub]. intros b [i bit] Hin. apply in_combine_r in Hin. rewrite <- in_rev in Hin. unfold pow_step. cbn [fst snd app].
  eapply (pres_bind _ _ _ O1). { destruct (Nat.ltb 0 i); [apply pres_mul; sub|ps]. }
  intros acc'. cbn [app]. eapply pres_bind; [apply pres_mul; sub|]. intros m. apply pres_select; sub.
Qed.
Definition cavs (l : list (AV * AV)) : list AV := flat_map (fun c : AV * AV => [fst c; snd c]) l.
Lemma cavs_in l (c : AV * AV) L : In c l -> incl (cavs l) L -> In (fst c) L /\ In (snd c) L.
Proof. intros H HL. split; apply HL, in_flat_map; exists c; cbn; auto. Qed.
Lemma pres_lagrange L (cs : list (AV * AV)) (x : AV) : incl (cavs cs) L -> In x L -> pres L (lagrange_and_eval cs x) (fun r => [fst r; snd r]).
Proof.
  intros Hc Hx. unfold lagrange_and_eval. remember cs as cs0 eqn:E. destruct cs as [|[x0 y0] rest]; rewrite E at 1; [apply pres_panic|].
  assert (H0 : In x0 L). { apply (cavs_in cs0 (x0, y0) L); auto. rewrite E. now left. }
  assert (Hr : forall c : AV * AV, In c rest -> In (fst c) L). { intros c Hin. apply (cavs_in cs0 c L); auto. rewrite E. now right. }
  eapply pres_bind; [apply pres_sub_; sub|]. intros z0. cbn [app]. eapply (pres_bind _ _ _ O1).
  { apply pres_foldM with (fb := O1); [|sub]. intros z c Hin. apply Hr in Hin. eapply pres_bind; [apply pres_sub_; sub|]. intros s. cbn [app]. apply pres_mul; sub. }
  intros z. cbn [app]. eapply (pres_bind _ _ _ (fun o => match o with Some e => [e] | None => [] end)).
  { apply pres_foldM; [|intros ? []]. intros ev [i c] Hin. apply in_combine_r in Hin. destruct (cavs_in cs0 c L Hin Hc) as [H1 H2]. destruct c as [xi yi]. cbn [fst snd] in *.
    unfold lag_step. eapply pres_bind; [apply pres_sub_; [|]; intros w [<-|[]]; rewrite !in_app_iff; cbn; auto 6|]. intros d0. eapply (pres_bind _ _ _ O1).
    { unfold lag_denom. apply pres_foldM with (fb := O1); [|intros w [<-|[]]; rewrite !in_app_iff; cbn; auto]. intros d [j c] Hj. apply in_combine_r in Hj.
      destruct (cavs_in cs0 c L Hj Hc) as [H3 H4]. cbn [fst snd]. destruct (Nat.eqb i j); [apply pres_ret; intros w [<-|[]]; cbn; auto|].
      eapply pres_bind; [apply pres_sub_; intros w [<-|[]]; rewrite !in_app_iff; cbn; auto 8|]. intros s. apply pres_mul; intros w [<-|[]]; rewrite !in_app_iff; cbn; auto 8. }
    intros d. eapply pres_bind; [apply pres_is_zero; cbn; auto|]. intros iz. eapply pres_bind; [apply pres_assert_is_const; cbn; auto|]. intros ?.
    eapply pres_bind; [apply pres_div_unsafe; intros w [<-|[]]; rewrite !in_app_iff; cbn; rewrite ?in_app_iff; cbn; auto 12|]. intros q. destruct ev as [e|].
    - eapply pres_bind; [apply pres_add; intros w [<-|[]]; rewrite !in_app_iff; cbn; auto 12|]. intros e'. apply pres_ret. intros w [<-|[]]. cbn. auto.
    - apply pres_ret. intros w [<-|[]]. cbn. auto. }
  intros ev. apply pres_lift_bind. intros e ->. cbn [app]. eapply pres_bind; [apply pres_mul; sub|]. intros o. apply pres_ret. sub.
Qed.
End PresGate.
