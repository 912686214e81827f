(** The Poseidon circuits compute the optimised permutation: soundness and completeness together (see Calc.v). *)
From Coq Require Import ZArith Lia List Bool Znumtheory Ring Arith.
From Verif Require Import Field Context ContextProofs Spec Logic Utils Gate GateProofs ChainProofs IPProofs BitProofs PowProofs IPComp Derived Calc
  Range SafeTypes SafeProofs SafeProofs2 Det PoseidonMds PoseidonSpec PoseidonOpt PoseidonOpt2 PoseidonChip.
Import ListNotations.
Local Open Scope nat_scope.

Section PC.
Context {p : positive}.
Add Ring Fring : (F_ring p) (morphism (F_morph p), constants [Fcst]).
Notation Fp := (F p).
Notation AV := (AV p).
Variable lb : nat.
Hypothesis Hp : prime (Z.pos p).
Notation calc := (calc lb).
Notation env := (env (p:=p)).
Definition self (o : list AV) : list AV := o.

Lemma flat_one (o : list AV) : flat_map one o = o.
Proof. induction o; cbn; congruence. Qed.
Lemma Forall2_map_eq {A} (e : env) (v : A -> Fp) l o : Forall2 (fun x y => e y = v x) l o -> map e o = map v l.
Proof. induction 1; cbn; congruence. Qed.

Lemma calc_mapM_fn {A} L (Pre : env -> Prop) (f : A -> M p AV) (v : env -> A -> Fp) l :
  (forall x, In x l -> calc L Pre (f x) (fun _ => True) (fun e y => e y = v e x) one) ->
  calc L Pre (mapM f l) (fun o => length o = length l) (fun e o => map e o = map (v e) l) self.
Proof.
  intros H. eapply calc_weaken; [apply (calc_mapM lb L Pre f (fun _ _ => True) (fun e x y => e y = v e x) one l H)| | | | |]; cbv beta.
  - apply incl_refl.
  - auto.
  - intros b Hb. apply Forall2_len in Hb. auto.
  - intros e b _ _ Hb. now apply Forall2_map_eq.
  - intros b _ a Ha. rewrite flat_one. apply in_or_app; auto.
Qed.

(** step with the same cells kept available *)
Lemma calc_mono {B} L L' (Pre Pre' : env -> Prop) (m : M p B) P R cs :
  calc L Pre m P R cs -> incl L L' -> (forall e, Pre' e -> Pre e) -> calc L' Pre' m P R cs.
Proof. intros H HL HP. eapply calc_weaken; [exact H|auto|auto|auto|auto|]. intros b _ a Ha. apply in_or_app; auto. Qed.
Lemma calc_post {B} L (Pre : env -> Prop) (m : M p B) P R (P' : B -> Prop) (R' : env -> B -> Prop) cs :
  calc L Pre m P R cs -> (forall b, P b -> P' b) -> (forall e b, P b -> Pre e -> R e b -> R' e b) -> calc L Pre m P' R' cs.
Proof. intros H HP HR. eapply calc_weaken; [exact H|apply incl_refl|auto|auto|auto|]. intros b _ a Ha. apply in_or_app; auto. Qed.

Lemma x_power5_calc L Pre (x : AV) c : In x L ->
  calc L Pre (x_power5_with_constant x c) (fun _ => True) (fun e o => e o = (fpow5 (e x) + c)%F) one.
Proof.
  intros Hx. unfold x_power5_with_constant.
  eapply calc_bind; [apply calc_mul; cbn; auto|]. intros x2 _.
  eapply calc_bind; [apply calc_mul; cbn; auto|]. intros x4 _.
  eapply calc_post; [apply calc_mul_add; cbn; auto|auto|].
  cbn. intros e o _ [[_ H2] H4] ->. rewrite H4, H2. unfold fpow5. ring.
Qed.

Lemma sbox_full_calc L Pre (s : list AV) k : incl s L ->
  calc L Pre (sbox_full s k) (fun o => length o = length (combine s k))
    (fun e o => map e o = n_sbox_full (map e s) k) self.
Proof.
  intros Hs. unfold sbox_full. eapply calc_post.
  - apply (calc_mapM_fn L Pre _ (fun e xc => fpow5 (e (fst xc)) + snd xc)%F). intros [x c] Hin. cbn [fst snd].
    apply x_power5_calc. apply Hs. eapply in_combine_l; eauto.
  - auto.
  - cbn beta. intros e o _ _ ->. unfold n_sbox_full. clear. revert k. induction s as [|x s IH]; intros [|c k]; cbn; auto. now rewrite IH.
Qed.
Lemma sbox_part_calc L Pre (s : list AV) c : incl s L -> s <> [] ->
  calc L Pre (sbox_part s c) (fun o => length o = length s) (fun e o => map e o = n_sbox_part (map e s) c) self.
Proof.
  intros Hs Hn. destruct s as [|x r]; [congruence|]. cbn [sbox_part].
  eapply calc_bind; [apply x_power5_calc; apply Hs; now left|]. intros y _.
  apply calc_ret; auto.
  - intros a [<-|Ha]; cbn; auto. right. apply Hs. now right.
  - cbn. intros e [_ ->]. reflexivity.
Qed.

Lemma dot_bsum' (s row : list Fp) T : length s = T -> length row = T -> dot s row = bsum T (fun j => vget row j * vget s j)%F.
Proof.
  revert row T. induction s as [|x s IH]; intros [|y row] [|T] H1 H2; cbn in H1, H2; try lia; [reflexivity|].
  rewrite bsum_S_l. cbn [dot]. rewrite (IH row T) by lia. cbn. unfold vget. cbn [nth]. ring.
Qed.
Lemma apply_mds_calc T L Pre (s : list AV) mds : incl s L -> length s = T -> wf_mat T mds ->
  calc L Pre (apply_mds s mds) (fun o => length o = T) (fun e o => map e o = mul_vector T mds (map e s)) self.
Proof.
  intros Hs HT [HM1 HM2]. unfold apply_mds. eapply calc_post.
  - apply (calc_mapM_fn L Pre _ (fun e row => dot (map e s) row)). intros row Hrow.
    assert (length row = T) by (rewrite Forall_forall in HM2; auto).
    eapply calc_post; [apply calc_inner_product|auto|].
    + rewrite !map_length. lia.
    + now apply qin_existing.
    + apply qin_constant.
    + cbv beta. intros e o _ _ ->. rewrite qe_existing, qe_constant. reflexivity.
  - cbv beta. lia.
  - cbv beta. intros e o _ _ ->. unfold mul_vector, tab.
    assert (E : map (fun row => dot (map e s) row) mds = map (fun i => dot (map e s) (nth i mds [])) (seq 0 T)).
    { rewrite <- HM1. clear. induction mds as [|r m IH]; [reflexivity|]. cbn [map length seq]. rewrite <- seq_shift, map_map, IH. reflexivity. }
    rewrite E. apply map_ext_in. intros i Hi. apply in_seq in Hi.
    rewrite (dot_bsum' _ _ T); [reflexivity|now rewrite map_length|].
    rewrite Forall_forall in HM2. apply HM2. apply nth_In. lia.
Qed.
Lemma apply_sparse_calc T L Pre (s : list AV) (sp : sparse (p:=p)) : incl s L -> length s = T -> 0 < T ->
  length (sp_row sp) = T -> S (length (sp_col_hat sp)) = T ->
  calc L Pre (apply_sparse_mds s sp) (fun o => length o = T) (fun e o => map e o = n_sparse T sp (map e s)) self.
Proof.
  intros Hs HT HT0 Hr Hc. destruct s as [|s0 s]; [cbn in HT; lia|]. unfold apply_sparse_mds.
  eapply calc_bind; [apply calc_inner_product|].
  - rewrite !map_length. lia.
  - now apply qin_existing.
  - apply qin_constant.
  - intros h _. eapply calc_lift_bind; [reflexivity|]. cbn [skipn].
    eapply calc_bind.
    + apply (calc_mapM_fn _ _ _ (fun e (cx : Fp * AV) => e s0 * fst cx + e (snd cx))%F). intros [c x] Hin. cbn [fst snd].
      apply calc_mul_add; cbn; auto.
      * right. apply Hs. now left.
      * right. apply Hs. right. eapply in_combine_r; eauto.
    + intros t Ht. cbv beta in Ht. apply calc_ret.
      * cbn [length]. rewrite Ht, combine_length. cbn in HT. lia.
      * unfold self. intros a [<-|Ha]; cbn; apply in_or_app; [right; now left|left; exact Ha].
      * intros e [[_ H1] H2]. cbn [map]. rewrite H1, H2. rewrite qe_existing, qe_constant. unfold n_sparse. f_equal.
        -- apply dot_bsum'; auto. cbn [length map]. rewrite map_length. auto.
        -- cbn [skipn map]. clear. generalize (sp_col_hat sp) as l. induction s as [|x s IH]; intros [|c l]; cbn; auto. f_equal. apply IH.
Qed.

(** fold of state transformers *)
Lemma calc_fold_state {A} T L (Pre : env -> Prop) (f : list AV -> A -> M p (list AV)) (G : env -> A -> list Fp -> list Fp) l s :
  (forall s' x, In x l -> length s' = T -> calc (s' ++ L) Pre (f s' x) (fun o => length o = T) (fun e o => map e o = G e x (map e s')) self) ->
  length s = T -> incl s L ->
  calc L Pre (foldM f l s) (fun o => length o = T) (fun e o => map e o = fold_left (fun v x => G e x v) l (map e s)) self.
Proof.
  intros HF HT Hs.
  apply (calc_foldM lb L Pre f (fun _ b => length b = T) (fun e done b => map e b = fold_left (fun v x => G e x v) done (map e s)) self); auto.
  intros done x rest b El Hb. eapply calc_weaken; [apply (HF b x)| | | | |]; auto.
  - rewrite El. apply in_or_app. right. now left.
  - apply incl_refl.
  - tauto.
  - cbv beta. intros e o _ [_ H1] H2. rewrite fold_left_app, <- H1. exact H2.
  - intros o _ a Ha. apply in_or_app; auto.
Qed.

Record wf_spec (T : nat) (sp : opt_spec (p:=p)) : Prop := mkWS {
  ws_T : 0 < T;
  ws_h : 0 < os_rf sp / 2;
  ws_mds : wf_mat T (os_mds sp);
  ws_pre : wf_mat T (os_pre_sparse sp);
  ws_start : oc_start (os_consts sp) <> [] /\ Forall (fun c => length c = T) (oc_start (os_consts sp));
  ws_end : Forall (fun c => length c = T) (oc_end (os_consts sp));
  ws_sparse : Forall (fun s => length (sp_row s) = T /\ S (length (sp_col_hat s)) = T) (os_sparse sp) }.

Lemma in_firstn {A} n (l : list A) x : In x (firstn n l) -> In x l.
Proof. intros H. rewrite <- (firstn_skipn n l). apply in_or_app; auto. Qed.
Lemma in_skipn {A} n (l : list A) x : In x (skipn n l) -> In x l.
Proof. intros H. rewrite <- (firstn_skipn n l). apply in_or_app; auto. Qed.

Lemma full_step_calc T L Pre s k m : incl s L -> length s = T -> length k = T -> wf_mat T m ->
  calc L Pre (bind (sbox_full s k) (fun s' => apply_mds s' m)) (fun o => length o = T)
    (fun e o => map e o = mul_vector T m (n_sbox_full (map e s) k)) self.
Proof.
  intros Hs HT Hk Hm. eapply calc_bind; [apply sbox_full_calc; auto|]. intros s' Hs'. cbv beta in Hs'. rewrite combine_length in Hs'.
  eapply calc_post; [apply (apply_mds_calc T)|auto|]; auto.
  - intros a Ha. apply in_or_app; auto.
  - lia.
  - cbv beta. intros e o _ [_ H1] H2. now rewrite H2, H1.
Qed.

Lemma perm_rounds_calc T L Pre (s : list AV) sp : wf_spec T sp -> incl s L -> length s = T ->
  calc L Pre (perm_rounds T s sp) (fun o => length o = T) (fun e o => map e o = opt_rounds T sp (map e s)) self.
Proof.
  intros [W0 Wh Wm Wp [Ws1 Ws2] We Wsp] Hs HT. unfold perm_rounds.
  apply calc_assert_bind. { apply Nat.ltb_lt; lia. }
  rewrite Forall_forall in Ws2, We, Wsp.
  eapply calc_bind.
  { apply (calc_fold_state T L Pre _ (fun e k v => mul_vector T (os_mds sp) (n_sbox_full v k))); auto.
    intros s' k Hk Hs'. apply full_step_calc; auto. { intros a Ha. apply in_or_app; auto. }
    apply Ws2. apply in_firstn, in_skipn in Hk. auto. }
  intros s1 Hs1. cbv beta in Hs1.
  assert (Hlast : length (last (oc_start (os_consts sp)) []) = T).
  { apply Ws2. destruct (exists_last Ws1) as (l' & a & ->). rewrite last_last. apply in_or_app. right. now left. }
  eapply calc_bind; [apply sbox_full_calc; intros a Ha; apply in_or_app; left; exact Ha|]. intros s2 Hs2. cbv beta in Hs2.
  rewrite combine_length, Hs1, Hlast, Nat.min_id in Hs2.
  eapply calc_bind; [apply (apply_mds_calc T); auto; intros a Ha; apply in_or_app; left; exact Ha|]. intros s3 Hs3. cbv beta in Hs3.
  eapply calc_bind.
  { apply (calc_fold_state T _ _ _ (fun e (ks : Fp * sparse (p:=p)) v => n_sparse T (snd ks) (n_sbox_part v (fst ks)))); auto.
    - intros s' [k sk] Hk Hs'. cbn [fst snd]. apply in_combine_r in Hk. apply Wsp in Hk as [Hk1 Hk2].
      eapply calc_bind; [apply sbox_part_calc|].
      + intros a Ha. apply in_or_app; left; exact Ha.
      + destruct s'; cbn in Hs'; [lia|discriminate].
      + intros s'' Hs''. cbv beta in Hs''. eapply calc_post; [apply (apply_sparse_calc T)|auto|]; auto.
        * intros a Ha. apply in_or_app; left; exact Ha.
        * lia.
        * cbv beta. intros e o _ [_ H1] H2. now rewrite H2, H1.
    - intros a Ha. apply in_or_app; left; exact Ha. }
  intros s4 Hs4. cbv beta in Hs4.
  eapply calc_bind.
  { apply (calc_fold_state T _ _ _ (fun e k v => mul_vector T (os_mds sp) (n_sbox_full v k))); auto.
    - intros s' k Hk Hs'. apply full_step_calc; auto. intros a Ha. apply in_or_app; auto.
    - intros a Ha. apply in_or_app; left; exact Ha. }
  intros s5 Hs5. cbv beta in Hs5.
  eapply calc_post; [apply (full_step_calc T)|auto|]; auto.
  - intros a Ha. apply in_or_app; left; exact Ha.
  - apply repeat_length.
  - cbv beta. intros e o _ [[[[[_ E1] E2] E3] E4] E5] E6. unfold opt_rounds, n_rounds, n_partial.
    rewrite E6, E5, E4, E3, E2, E1. do 3 f_equal.
    clear. generalize (mul_vector T (os_pre_sparse sp) (n_sbox_full (fold_left (fun v x => mul_vector T (os_mds sp) (n_sbox_full v x)) (firstn (os_rf sp / 2 - 1) (skipn 1 (oc_start (os_consts sp)))) (map e s)) (last (oc_start (os_consts sp)) []))).
    induction (combine (oc_partial (os_consts sp)) (os_sparse sp)) as [|[k sk] l IH]; intros v; [reflexivity|]. cbn [fold_left fst snd]. apply IH.
Qed.
End PC.
