(** Compact-input and chunk-input hashing, and the shape of a computed specification. *)
From Coq Require Import ZArith Lia List Bool Znumtheory Ring Arith.
From Verif Require Import Field Context ContextProofs Spec Logic Utils Gate GateProofs Calc
  Range SafeTypes Det PoseidonMds PoseidonSpec PoseidonOpt PoseidonOpt2 PoseidonChip PoseidonChipProofs PoseidonChipProofs2 PoseidonChipProofs3 PoseidonHash.
Import ListNotations.
Local Open Scope nat_scope.

Section PCo.
Context {p : positive}.
Add Ring Fring : (F_ring p) (morphism (F_morph p), constants [Fcst]).
Notation Fp := (F p).
Notation AV := (AV p).
Notation vec := (list Fp).
Notation dAV := (dAV (p:=p)).

(** ** a computed specification is well formed *)
Lemma factorise_shape T RATE m m' s : factorise (p:=p) T RATE m = Some (m', s) -> length (sp_row s) = T /\ S (length (sp_col_hat s)) = T.
Proof.
  unfold factorise. destruct (negb (RATE + 1 =? T)) eqn:E; [discriminate|]. apply negb_false_iff, Nat.eqb_eq in E.
  destruct (determinant _ _) as [d|]; [|discriminate]. destruct (Fis0 d); [discriminate|].
  destruct (all_some _) as [w|]; [|discriminate]. intros H. injection H as <- <-. cbn [sp_row sp_col_hat]. rewrite !tab_len. lia.
Qed.
Lemma sparse_loop_shape T RATE mt r : forall acc out sps a, sparse_loop (p:=p) T RATE mt r acc out = Some (sps, a) ->
  Forall (fun s => length (sp_row s) = T /\ S (length (sp_col_hat s)) = T) out ->
  Forall (fun s => length (sp_row s) = T /\ S (length (sp_col_hat s)) = T) sps.
Proof.
  induction r as [|r IH]; intros acc out sps a H HF; cbn [sparse_loop] in H.
  - injection H as <- <-. auto.
  - destruct (factorise T RATE acc) as [[m' s]|] eqn:E; [|discriminate]. apply IH in H; auto. constructor; auto.
    eapply factorise_shape; eauto.
Qed.
Lemma Forall_map_len {A} (f : A -> vec) l T : (forall x, In x l -> length (f x) = T) -> Forall (fun c => length c = T) (map f l).
Proof. intros H. apply Forall_forall. intros c Hc. apply in_map_iff in Hc as (x & <- & Hx). auto. Qed.

Lemma opt_spec_wf T RATE r_f r_p cs mds mds_inv sp : 0 < T -> wf_mat T mds -> Forall (fun c => length c = T) cs ->
  opt_spec_new (p:=p) T RATE r_f r_p cs mds mds_inv = Some sp -> wf_spec T sp.
Proof.
  intros HT HM HC. unfold opt_spec_new, calculate_optimized_constants.
  destruct (negb (length cs =? r_f + r_p)) eqn:E1; [discriminate|]. apply negb_false_iff, Nat.eqb_eq in E1.
  destruct (Nat.eqb_spec (r_f / 2) 0) as [E2|E2]; [discriminate|].
  destruct (partial_consts T mds_inv (firstn r_p (skipn (r_f / 2) (rev (skipn (r_f / 2) cs)))) (nth (r_f / 2 + r_p) cs [])) as [acc ks].
  unfold calculate_sparse_matrices. destruct (sparse_loop _ _ _ _ _ _) as [[sps pre]|] eqn:E3; [|discriminate].
  intros H. injection H as <-. cbn [option_map] in *.
  assert (H2 : r_f / 2 <= r_f) by (apply Nat.div_le_upper_bound; lia).
  constructor; cbn [os_rf os_mds os_pre_sparse os_consts os_sparse oc_start oc_end]; auto; try lia.
  - unfold wf_mat, mat_transpose, tab2. split; [apply tab_len|]. unfold tab at 1. apply Forall_map_len. intros. apply tab_len.
  - split; [discriminate|]. constructor.
    + rewrite Forall_forall in HC. apply HC. apply nth_In. lia.
    + apply Forall_app. split; [apply Forall_map_len; intros; apply mul_vector_len|]. constructor; [apply mul_vector_len|constructor].
  - apply Forall_map_len. intros; apply mul_vector_len.
  - eapply sparse_loop_shape; eauto.
Qed.

Lemma poseidon_perm_len T rf rp (m : list vec) cs s : wf_mat T m -> length s = T -> length (poseidon_perm rf rp m cs s) = T.
Proof. intros HM Hs. unfold poseidon_perm. cbv zeta. apply fold_full_len; auto. apply fold_partial_len; auto. apply fold_full_len; auto. Qed.

(** ** compact rows *)
Variable lb : nat.
Hypothesis Hp : prime (Z.pos p).
Notation calc := (calc lb).
Notation env := (env (p:=p)).
Variables (T RATE : nat).
Hypothesis HTR : T = S RATE.
Hypothesis HR : 0 < RATE.
Hypothesis HRp : (Z.of_nat RATE < Z.pos p)%Z.
Variable sp : opt_spec (p:=p).
Hypothesis HW : wf_spec T sp.
Notation n_state := (n_state T RATE sp).
Notation n_squeeze := (n_squeeze T RATE sp).
Ltac memb := cbn [qin]; unfold self, one in *; rewrite ?in_app_iff; cbn [In]; tauto.

Lemma n_state_ext (m m' : vec) k s : (forall i, i < k -> blk RATE m i = blk RATE m' i) -> n_state m k s = n_state m' k s.
Proof. induction k as [|k IH]; intros H; [reflexivity|]. rewrite !n_state_S, IH by auto. rewrite H by lia. reflexivity. Qed.
Lemma blk_app_l (a b : vec) i : (S i) * RATE <= length a -> blk RATE (a ++ b) i = blk RATE a i.
Proof.
  clear. intros H. unfold blk. rewrite skipn_app, firstn_app, skipn_length.
  replace (RATE - (length a - i * RATE)) with 0 by lia. cbn [firstn]. apply app_nil_r.
Qed.
Lemma blk_app_r (a b : vec) k : length a = k * RATE -> length b <= RATE -> blk RATE (a ++ b) k = b.
Proof.
  clear. intros H Hb. unfold blk. rewrite skipn_app, skipn_all2 by lia. replace (k * RATE - length a) with 0 by lia. cbn [app skipn].
  now apply firstn_all2.
Qed.
(** reading one more full block *)
Lemma n_state_block (buf xs : vec) k s : length buf = k * RATE -> length xs = RATE ->
  n_state (buf ++ xs) (S k) s = opt_perm T sp xs (n_state buf k s).
Proof.
  intros Hb Hx. rewrite n_state_S, blk_app_r by lia. f_equal. apply n_state_ext. intros i Hi. apply blk_app_l. nia.
Qed.
Lemma n_squeeze_short (buf xs : vec) k s : length buf = k * RATE -> length xs < RATE ->
  n_squeeze (buf ++ xs) s = opt_perm T sp xs (n_state buf k s).
Proof.
  intros Hb Hx. unfold PoseidonChipProofs3.n_squeeze. cbv zeta. rewrite app_length.
  assert (E : (length buf + length xs) / RATE = k). { symmetry. apply (Nat.div_unique _ _ _ (length xs)); lia. }
  rewrite E. f_equal.
  - rewrite skipn_app, skipn_all2 by lia. replace (k * RATE - length buf) with 0 by lia. reflexivity.
  - apply n_state_ext. intros i Hi. apply blk_app_l. nia.
Qed.
Lemma n_squeeze_full (buf : vec) k s : length buf = k * RATE -> n_squeeze buf s = opt_perm T sp [] (n_state buf k s).
Proof. intros Hb. rewrite <- (app_nil_r buf) at 1. apply n_squeeze_short; auto. Qed.

Definition cst2 (st : list AV * list AV) : list AV := fst st ++ snd st.
Definition ci_row (e : env) (c : compact_input (p:=p)) : vec * bool * nat :=
  (map e (ci_inputs c), negb (Feqb (e (ci_is_final c)) F0), Z.to_nat (val (e (ci_len c)))).
Definition ci_cells (c : compact_input (p:=p)) : list AV := ci_is_final c :: ci_len c :: ci_inputs c.
(** the documented shape of a row *)
Definition ci_valid (e : env) (c : compact_input (p:=p)) : Prop :=
  (e (ci_is_final c) = F0 \/ e (ci_is_final c) = F1) /\ (val (e (ci_len c)) <= Z.of_nat RATE)%Z /\
  (e (ci_is_final c) = F0 -> val (e (ci_len c)) = Z.of_nat RATE).
Definition nhash (m : vec) : Fp := vget (n_squeeze m (sponge_init T)) 1.

(** buffer of the current logical input after some rows *)
Definition buf_step (buf : vec) (r : vec * bool * nat) : vec := let '(xs, fin, n) := r in if fin then [] else buf ++ firstn n xs.
Lemma compact_hashes_snoc h rows : forall buf xs fin n, compact_hashes h buf (rows ++ [(xs, fin, n)]) =
  compact_hashes h buf rows ++ [h (fold_left buf_step rows buf ++ firstn n xs)].
Proof.
  induction rows as [|[[ys f] k] rows IH]; intros buf xs fin n; cbn [app compact_hashes fold_left]; auto. now rewrite IH.
Qed.

Lemma e_final (e : env) (b : AV) : e b = F0 \/ e b = F1 -> Feqb (e b) F0 = true /\ e b = F0 \/ Feqb (e b) F0 = false /\ e b = F1.
Proof.
  intros [H|H]; rewrite H; [left|right]; (split; [|reflexivity]); unfold Feqb; [apply Z.eqb_refl|].
  rewrite (val_1 _ Hp), val_0. reflexivity.
Qed.

Lemma compact_step_calc L (Pre : env -> Prop) (init : list AV) st c (k : env -> nat) (buf : env -> vec) :
  incl init L -> incl (cst2 st) L -> incl (ci_cells c) L -> length init = T -> length (fst st) = T -> length (ci_inputs c) = RATE ->
  (forall e, Pre e -> map e init = sponge_init T /\ ci_valid e c /\ length (buf e) = k e * RATE /\
     map e (fst st) = n_state (buf e) (k e) (sponge_init T)) ->
  calc L Pre (compact_step T RATE sp init st c)
    (fun o => length (fst o) = T /\ length (snd o) = S (length (snd st)))
    (fun e o => let buf' := buf_step (buf e) (ci_row e c) in
       (exists k', length buf' = k' * RATE /\ map e (fst o) = n_state buf' k' (sponge_init T)) /\
       map e (snd o) = map e (snd st) ++ [nhash (buf e ++ firstn (Z.to_nat (val (e (ci_len c)))) (map e (ci_inputs c)))]) cst2.
Proof.
  intros Hi Hst Hc Li L1 Lc HPre. unfold compact_step.
  assert (H1 : incl (fst st) L) by (intros a Ha; apply Hst; unfold cst2; apply in_or_app; auto).
  assert (H2 : incl (snd st) L) by (intros a Ha; apply Hst; unfold cst2; apply in_or_app; auto).
  assert (Hf : In (ci_is_final c) L) by (apply Hc; now left). assert (Hl : In (ci_len c) L) by (apply Hc; right; now left).
  assert (Hin : incl (ci_inputs c) L) by (intros a Ha; apply Hc; right; now right).
  eapply calc_bind; [apply calc_is_equal; cbn; auto|]. intros full _.
  eapply calc_bind; [apply (perm_var_calc lb Hp T RATE HTR HR HRp sp HW _ _ (fst st) (ci_inputs c) (ci_len c))|]; auto; try lia.
  { intros a Ha. apply H1 in Ha. memb. } { intros a Ha. apply Hin in Ha. memb. } { memb. }
  intros s1 Hs1. cbv beta in Hs1.
  eapply calc_bind; [apply (perm_fix_calc lb T RATE HTR HR sp HW _ _ s1 [])|]; auto; try (cbn; lia).
  { intros a Ha. memb. } { intros a []. }
  intros s2 Hs2. cbv beta in Hs2.
  assert (N2 : nth_error s2 1 = Some (nth 1 s2 dAV)) by (apply nth_error_nth'; lia).
  assert (N1 : nth_error s1 1 = Some (nth 1 s1 dAV)) by (apply nth_error_nth'; lia).
  eapply calc_lift_bind; [exact N2|]. eapply calc_lift_bind; [exact N1|].
  assert (I2 : In (nth 1 s2 dAV) s2) by (apply nth_In; lia). assert (I1 : In (nth 1 s1 dAV) s1) by (apply nth_In; lia).
  eapply calc_bind; [apply calc_select|]. { memb. } { memb. } { memb. } intros h _.
  eapply calc_bind; [apply (ps_select_calc lb T RATE HTR HR _ _ s1 (ci_is_final c) init)|]; try congruence.
  { intros a Ha. memb. } { intros a Ha. apply Hi in Ha. memb. } { memb. }
  intros s' Hs'. cbv beta in Hs'. apply calc_ret; cbn [fst snd].
  - split; [congruence|]. rewrite app_length. cbn. lia.
  - unfold cst2. cbn [fst snd]. intros a Ha. rewrite !in_app_iff in Ha. cbn [In] in Ha.
    destruct Ha as [Ha|[Ha|[Ha|[]]]]; [memb| |subst; memb]. apply H2 in Ha. memb.
  - intros e [[[[[HP Efull] Es1] Es2] Eh] [Es0 Es'1]]. cbn [qe] in *.
    destruct (HPre e HP) as (Einit & (Hbit & Hle & Hnf) & Hk & Est). clear HPre HP.
    specialize (Es1 ltac:(lia)). rewrite Est in Es1. set (n := Z.to_nat (val (e (ci_len c)))) in *.
    pose proof (val_bounds p (e (ci_len c))) as Bl.
    assert (Hn : n <= RATE) by (unfold n; lia).
    set (xs := map e (ci_inputs c)) in *. assert (Lx : length xs = RATE) by (unfold xs; now rewrite map_length).
    assert (Lf : length (firstn n xs) = n) by (rewrite firstn_length; lia).
    (* the hash *)
    assert (Hh : e h = nhash (buf e ++ firstn n xs)).
    { rewrite Feqb_val in Efull by lia. rewrite val_of_Z, Z.mod_small in Efull by lia. unfold nhash.
      rewrite Eh, !(nth1_e e _ _ N2), !(nth1_e e _ _ N1).
      destruct (Z.eqb_spec (val (e (ci_len c))) (Z.of_nat RATE)) as [HE|HE]; rewrite Efull; cbn [fbool].
      - assert (n = RATE) by (unfold n; lia).
        rewrite (n_squeeze_full (buf e ++ firstn n xs) (S (k e))) by (rewrite app_length; lia).
        rewrite n_state_block by lia. rewrite Es2. rewrite Es1. cbn [map]. ring.
      - assert (n < RATE) by (unfold n in *; lia). rewrite (n_squeeze_short _ _ (k e)) by lia. rewrite Es1. ring. }
    cbv zeta. split.
    + unfold ci_row. fold n xs. cbn [buf_step]. destruct (e_final e _ Hbit) as [[Ef Ev]|[Ef Ev]]; rewrite Ef; cbn [negb].
      * exists (S (k e)). assert (n = RATE) by (unfold n; specialize (Hnf Ev); lia). split; [rewrite app_length; lia|].
        rewrite Es0 by auto. rewrite n_state_block by lia. exact Es1.
      * exists 0. split; [reflexivity|]. rewrite Es'1 by auto. exact Einit.
    + rewrite map_app. f_equal. cbn [map]. now rewrite Hh.
Qed.

Lemma hash_compact_calc L (Pre : env -> Prop) consts (rows : list (compact_input (p:=p))) :
  incl (fst consts) L -> length (fst consts) = T -> (forall c, In c rows -> incl (ci_cells c) L /\ length (ci_inputs c) = RATE) ->
  (forall e, Pre e -> map e (fst consts) = sponge_init T /\ forall c, In c rows -> ci_valid e c) ->
  calc L Pre (hash_compact_input T RATE consts rows sp) (fun o => length o = length rows)
    (fun e o => map e o = compact_hashes nhash [] (map (ci_row e) rows)) self.
Proof.
  intros Hi Li Hr HPre. unfold hash_compact_input.
  eapply calc_bind.
  - apply (calc_foldM lb L Pre _ (fun done b => length (fst b) = T /\ length (snd b) = length done)
      (fun e done b => (exists k', length (fold_left buf_step (map (ci_row e) done) []) = k' * RATE /\
           map e (fst b) = n_state (fold_left buf_step (map (ci_row e) done) []) k' (sponge_init T)) /\
         map e (snd b) = compact_hashes nhash [] (map (ci_row e) done)) cst2).
    + intros done c rest b El [Hb1 Hb2]. assert (Hc : In c rows) by (rewrite El; apply in_or_app; right; now left).
      destruct (Hr c Hc) as [Hc1 Hc2].
      eapply calc_post; [apply (compact_step_calc _ _ (fst consts) b c
         (fun e => length (fold_left buf_step (map (ci_row e) done) []) / RATE) (fun e => fold_left buf_step (map (ci_row e) done) []))| |]; auto.
      * intros a Ha. apply Hi in Ha. memb.
      * intros a Ha. memb.
      * intros a Ha. apply Hc1 in Ha. memb.
      * intros e [HP [(k' & E1 & E2) E3]]. destruct (HPre e HP) as [HP1 HP2]. rewrite E1, Nat.div_mul by lia. auto.
      * cbv beta. intros o [? ?]. split; auto. rewrite app_length. cbn [length]. lia.
      * cbv beta. intros e o _ [HP [_ E3]] [E4 E5]. rewrite map_app, fold_left_app. cbn [map fold_left]. split; [exact E4|].
        rewrite E5, E3. symmetry. apply compact_hashes_snoc.
    + cbn. auto.
    + intros e HP. cbn [map fold_left fst snd length compact_hashes]. split; auto. exists 0. split; auto. apply HPre; auto.
    + unfold cst2. cbn [fst snd]. now rewrite app_nil_r.
  - intros r [Hr1 Hr2]. apply calc_ret; auto.
    + intros a Ha. unfold cst2. memb.
    + intros e [_ [_ E]]. exact E.
Qed.

(** ** chunk rows *)
Definition ch_row (e : env) (c : list (list AV) * AV) : vec * bool := (map e (concat (fst c)), negb (Feqb (e (snd c)) F0)).
Definition cbuf_step (buf : vec) (r : vec * bool) : vec := let '(xs, fin) := r in if fin then [] else buf ++ xs.
Lemma chunk_hashes_snoc h rows : forall buf xs fin, chunk_hashes h buf (rows ++ [(xs, fin)]) =
  chunk_hashes h buf rows ++ [if fin : bool then h (fold_left cbuf_step rows buf ++ xs) else F0].
Proof. induction rows as [|[ys f] rows IH]; intros buf xs fin; cbn [app chunk_hashes fold_left]; auto. now rewrite IH. Qed.

Lemma absorb_rows_calc L (Pre : env -> Prop) (rows : list (list AV)) s :
  incl (concat rows) L -> incl s L -> length s = T -> Forall (fun r => length r = RATE) rows ->
  calc L Pre (foldM (fun s a => permutation T RATE s a None sp) rows s) (fun o => length o = T)
    (fun e o => forall buf k st0, length buf = k * RATE -> map e s = n_state buf k st0 ->
       map e o = n_state (buf ++ map e (concat rows)) (k + length rows) st0) self.
Proof.
  intros Hi Hs Ls HF. rewrite Forall_forall in HF.
  eapply calc_post; [apply (calc_fold_state lb T L Pre _ (fun e ch st => opt_perm T sp (map e ch) st))| |]; auto.
  - intros s' x Hx Hs'. apply (perm_fix_calc lb T RATE HTR HR sp HW); auto.
    + intros a Ha. memb.
    + intros a Ha. apply in_or_app. right. apply Hi. apply in_concat. eauto.
    + rewrite HF; auto.
  - cbv beta. intros e o _ _ ->. intros buf k st0 Hb ->. clear Hi. revert buf k Hb. induction rows as [|r rows IH]; intros buf k Hb.
    + cbn [concat map fold_left length]. now rewrite app_nil_r, Nat.add_0_r.
    + cbn [concat map fold_left length]. assert (Lr : length (map e r) = RATE) by (rewrite map_length; apply HF; now left).
      rewrite <- n_state_block by auto. rewrite IH; [|intros x Hx; apply HF; now right|rewrite app_length, Lr; lia].
      rewrite map_app, app_assoc. f_equal. lia.
Qed.

Lemma chunk_step_calc L (Pre : env -> Prop) (init : list AV) zero st c (k : env -> nat) (buf : env -> vec) :
  incl init L -> incl (cst2 st) L -> incl (snd c :: concat (fst c)) L -> In zero L -> length init = T -> length (fst st) = T ->
  Forall (fun r => length r = RATE) (fst c) ->
  (forall e, Pre e -> map e init = sponge_init T /\ e zero = F0 /\ (e (snd c) = F0 \/ e (snd c) = F1) /\ length (buf e) = k e * RATE /\
     map e (fst st) = n_state (buf e) (k e) (sponge_init T)) ->
  calc L Pre (chunk_step T RATE sp init zero st c)
    (fun o => length (fst o) = T /\ length (snd o) = S (length (snd st)))
    (fun e o => let buf' := cbuf_step (buf e) (ch_row e c) in
       (exists k', length buf' = k' * RATE /\ map e (fst o) = n_state buf' k' (sponge_init T)) /\
       map e (snd o) = map e (snd st) ++ [if negb (Feqb (e (snd c)) F0) then nhash (buf e ++ map e (concat (fst c))) else F0]) cst2.
Proof.
  intros Hi Hst Hc Hz Li L1 HF HPre. unfold chunk_step.
  assert (H1 : incl (fst st) L) by (intros a Ha; apply Hst; unfold cst2; apply in_or_app; auto).
  assert (H2 : incl (snd st) L) by (intros a Ha; apply Hst; unfold cst2; apply in_or_app; auto).
  assert (Hf : In (snd c) L) by (apply Hc; now left).
  assert (Hin : incl (concat (fst c)) L) by (intros a Ha; apply Hc; now right).
  eapply calc_bind; [apply (absorb_rows_calc L Pre (fst c) (fst st)); auto|]. intros s1 Hs1. cbv beta in Hs1.
  eapply calc_bind; [apply (perm_fix_calc lb T RATE HTR HR sp HW _ _ s1 [])|]; auto; try (cbn; lia).
  { intros a Ha. memb. } { intros a []. }
  intros s2 Hs2. cbv beta in Hs2.
  assert (N2 : nth_error s2 1 = Some (nth 1 s2 dAV)) by (apply nth_error_nth'; lia).
  eapply calc_lift_bind; [exact N2|].
  assert (I2 : In (nth 1 s2 dAV) s2) by (apply nth_In; lia).
  eapply calc_bind; [apply calc_select|]. { memb. } { memb. } { memb. } intros h _.
  eapply calc_bind; [apply (ps_select_calc lb T RATE HTR HR _ _ s1 (snd c) init)|]; try congruence.
  { intros a Ha. memb. } { intros a Ha. apply Hi in Ha. memb. } { memb. }
  intros s' Hs'. cbv beta in Hs'. apply calc_ret; cbn [fst snd].
  - split; [congruence|]. rewrite app_length. cbn. lia.
  - unfold cst2. cbn [fst snd]. intros a Ha. rewrite !in_app_iff in Ha. cbn [In] in Ha.
    destruct Ha as [Ha|[Ha|[Ha|[]]]]; [memb| |subst; memb]. apply H2 in Ha. memb.
  - intros e [[[[HP Es1] Es2] Eh] [Es0 Es'1]]. cbn [qe] in *.
    destruct (HPre e HP) as (Einit & Ez & Hbit & Hk & Est). clear HPre HP.
    specialize (Es1 _ _ _ Hk Est). set (xs := map e (concat (fst c))) in *.
    assert (Lx : length xs = length (fst c) * RATE).
    { unfold xs. rewrite map_length. clear -HF. induction HF as [|r l Hr _ IH]; cbn; auto. rewrite app_length. lia. }
    assert (Lb : length (buf e ++ xs) = (k e + length (fst c)) * RATE) by (rewrite app_length; lia).
    cbv zeta. unfold ch_row. fold xs. cbn [cbuf_step fst snd].
    destruct (e_final e _ Hbit) as [[Ef Ev]|[Ef Ev]]; rewrite Ef; cbn [negb]; split.
    + exists (k e + length (fst c)). split; auto. rewrite Es0 by auto. exact Es1.
    + rewrite map_app. f_equal. cbn [map]. rewrite Eh, Ev, Ez. f_equal. ring.
    + exists 0. split; [reflexivity|]. rewrite Es'1 by auto. exact Einit.
    + rewrite map_app. f_equal. cbn [map]. rewrite Eh, Ev, Ez. f_equal. unfold nhash.
      rewrite (n_squeeze_full _ _ _ Lb), (nth1_e e _ _ N2), Es2, Es1. cbn [map]. ring.
Qed.

Lemma hash_chunks_calc L (Pre : env -> Prop) consts (rows : list (list (list AV) * AV)) :
  incl (fst consts) L -> length (fst consts) = T ->
  (forall c, In c rows -> incl (snd c :: concat (fst c)) L /\ Forall (fun r => length r = RATE) (fst c)) ->
  (forall e, Pre e -> map e (fst consts) = sponge_init T /\ forall c, In c rows -> e (snd c) = F0 \/ e (snd c) = F1) ->
  calc L Pre (hash_compact_chunk_inputs T RATE consts rows sp) (fun o => length o = length rows)
    (fun e o => map e o = chunk_hashes nhash [] (map (ch_row e) rows)) self.
Proof.
  intros Hi Li Hr HPre. unfold hash_compact_chunk_inputs.
  eapply calc_bind; [apply calc_load_zero|]. intros zero _.
  eapply calc_bind.
  - apply (calc_foldM lb _ _ _ (fun done b => length (fst b) = T /\ length (snd b) = length done)
      (fun e done b => (exists k', length (fold_left cbuf_step (map (ch_row e) done) []) = k' * RATE /\
           map e (fst b) = n_state (fold_left cbuf_step (map (ch_row e) done) []) k' (sponge_init T)) /\
         map e (snd b) = chunk_hashes nhash [] (map (ch_row e) done)) cst2).
    + intros done c rest b El [Hb1 Hb2]. assert (Hc : In c rows) by (rewrite El; apply in_or_app; right; now left).
      destruct (Hr c Hc) as [Hc1 Hc2].
      eapply calc_post; [apply (chunk_step_calc _ _ (fst consts) zero b c
         (fun e => length (fold_left cbuf_step (map (ch_row e) done) []) / RATE) (fun e => fold_left cbuf_step (map (ch_row e) done) []))| |]; auto.
      * intros a Ha. apply Hi in Ha. memb.
      * intros a Ha. memb.
      * intros a Ha. apply Hc1 in Ha. memb.
      * memb.
      * intros e [[HP Ez] [(k' & E1 & E2) E3]]. destruct (HPre e HP) as [HP1 HP2]. rewrite E1, Nat.div_mul by lia. auto.
      * cbv beta. intros o [? ?]. split; auto. rewrite app_length. cbn [length]. lia.
      * cbv beta. intros e o _ [HP [_ E3]] [E4 E5]. rewrite map_app, fold_left_app. cbn [map fold_left]. split; [exact E4|].
        rewrite E5, E3. symmetry. apply chunk_hashes_snoc.
    + cbn. auto.
    + intros e [HP _]. cbn [map fold_left fst snd length chunk_hashes]. split; auto. exists 0. split; auto. apply HPre; auto.
    + unfold cst2. cbn [fst snd]. rewrite app_nil_r. intros a Ha. apply Hi in Ha. memb.
  - intros r [Hr1 Hr2]. apply calc_ret; auto.
    + intros a Ha. unfold cst2. memb.
    + intros e [_ [_ E]]. exact E.
Qed.
End PCo.
