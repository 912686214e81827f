(** Property theorems C39-C42 about the Poseidon hasher. Reading guide: see PropsGate.v; the specification is PoseidonSpec.v. *)
From Coq Require Import ZArith Znumtheory Lia List Bool Arith.
From Verif Require Import Field Spec Context ContextProofs Utils Logic Gate GateProofs ChainProofs IPProofs BitProofs PowProofs SatCheck Derived Calc PropsGate
  Range RangeProofs RangeProofs2 PropsRange SafeTypes SafeProofs SafeProofs2 Det PoseidonMds PoseidonSpec PoseidonOpt PoseidonOpt2 PoseidonChip
  PoseidonChipProofs PoseidonChipProofs2 PoseidonChipProofs3 PoseidonHash PoseidonCompact PropsSafe.
Import ListNotations.
Local Open Scope nat_scope.
Local Open Scope monad_scope.

Section PropsPoseidon.
Context (p : positive) (lb : nat) (Hp : prime (Z.pos p)) (Hlb : 1 <= lb < 64) (Hlb2 : 2 * lb <= CAPACITY p).
Notation Fp := (F p).
Notation AV := (AV p).
Context (T RATE r_f r_p : nat) (cs : list (list Fp)) (mds mds_inv : list (list Fp)) (sp : opt_spec (p:=p)).
(** the parameters: rate T-1, an even number of full rounds, a T by T matrix and its inverse, one constant vector of T words per round,
    from which OptimizedPoseidonSpec::new computes [sp] *)
Add Ring Fring : (F_ring p) (morphism (F_morph p), constants [Fcst]).
Context (HTR : T = S RATE) (HR : 0 < RATE) (HRp : (Z.of_nat RATE < Z.pos p)%Z) (Hrf : r_f mod 2 = 0).
Context (HM : length mds = T /\ Forall (fun r => length r = T) mds) (HC : Forall (fun c => length c = T) cs)
  (Hinv : mat_mul T mds mds_inv = mat_identity T)
  (Hnew : opt_spec_new T RATE r_f r_p cs mds mds_inv = Some sp).
Let perm := poseidon_perm r_f r_p mds cs.
(** the block the permutation absorbs: a short input is completed by a one and zeros *)
Definition block_of (xs : list Fp) : list Fp := if length xs <? RATE then xs ++ F1 :: repeat F0 (RATE - 1 - length xs) else xs.

Local Lemma HW : wf_spec T sp.
Proof. eapply opt_spec_wf; eauto. lia. Qed.
Local Lemma Hc0 : length (nth 0 (oc_start (os_consts sp)) []) = T /\
  forall s, length s = T -> opt_rounds T sp (add_vec s (nth 0 (oc_start (os_consts sp)) [])) = perm s.
Proof. eapply opt_rounds_correct; eauto. lia. Qed.
Local Lemma Hpl : forall s, length s = T -> length (perm s) = T.
Proof. intros. apply poseidon_perm_len; auto. Qed.

(** ** C39: the optimized schedule is the textbook permutation *)
Theorem C39_optimized_permutation : forall (s xs : list Fp), length s = T -> length xs <= RATE ->
  opt_perm T sp xs s = poseidon_perm r_f r_p mds cs (add_vec s (F0 :: block_of xs)).
Proof. intros s xs Hs Hx. destruct Hc0. apply (opt_perm_block T RATE HTR HR sp perm); auto. Qed.

Lemma squeeze_spec m s : length s = T -> n_squeeze T RATE sp m s = sponge_absorb RATE perm s m.
Proof. destruct Hc0. apply n_squeeze_spec; auto. apply Hpl. Qed.
Lemma squeeze_hash m : vget (n_squeeze T RATE sp m (sponge_init T)) 1 = poseidon_hash T perm m.
Proof.
  rewrite squeeze_spec by (unfold sponge_init; cbn [length]; rewrite repeat_length; lia). unfold poseidon_hash, vget. now replace (T - 1) with RATE by lia.
Qed.

(** from the joint judgement to the two separate ones *)
Lemma calc_sound {B} L (Pre : env -> Prop) (m : M p B) P R cs' : calc lb L Pre m P R cs' -> sound lb m P (fun sg o => Pre (avs sg) -> R (avs sg) o).
Proof. intros [H _]. exact H. Qed.
Lemma calc_comp_l L vs m P (G : env -> list Fp) : calc lb L (fun _ => True) m P (fun e o => map e o = G e) self ->
  Forall2 hv L vs -> comp lb (fun rho => Forall (av_ok rho) L) m (fun o => Forall2 hv o (G hval)) (fun rho o => Forall (av_ok rho) o).
Proof.
  intros [_ H] HV. eapply comp_weaken; [apply H; auto; eapply hv_good_l; eauto|auto| |auto].
  cbv beta. intros o (_ & Hg & E). rewrite <- E. now apply good_hv_l.
Qed.
Lemma hval_app (a b : list AV) va vb : Forall2 hv a va -> Forall2 hv b vb -> Forall2 hv (a ++ b) (va ++ vb).
Proof. intros. now apply Forall2_app. Qed.

(** ** C40: the permutation circuit, with a full or short block of inputs, and with a block of witnessed length *)
Theorem C40_permutation_sound : forall (s inputs : list AV), length s = T -> length inputs <= RATE ->
  sound lb (permutation T RATE s inputs None sp) (fun o => length o = T)
    (fun sg o => map (avs sg) o = poseidon_perm r_f r_p mds cs (add_vec (map (avs sg) s) (F0 :: block_of (map (avs sg) inputs)))).
Proof.
  intros s i Hs Hi. eapply sound_weaken; [eapply (calc_sound (s ++ i) (fun _ => True)), (perm_fix_calc lb T RATE HTR HR sp HW)|auto|]; auto.
  - intros a Ha. apply in_or_app; auto.
  - intros a Ha. apply in_or_app; auto.
  - cbv beta. intros sg o _ H. rewrite H by auto. apply C39_optimized_permutation; now rewrite map_length.
Qed.
Theorem C40_permutation_complete : forall (s inputs : list AV) (vs xs : list Fp), Forall2 hv s vs -> Forall2 hv inputs xs ->
  length s = T -> length inputs <= RATE ->
  comp lb (fun rho => Forall (av_ok rho) (s ++ inputs)) (permutation T RATE s inputs None sp)
    (fun o => Forall2 hv o (poseidon_perm r_f r_p mds cs (add_vec vs (F0 :: block_of xs)))) (fun rho o => Forall (av_ok rho) o).
Proof.
  intros s i vs xs Hv Hx Hs Hi. eapply comp_weaken; [eapply calc_comp_l; [apply (perm_fix_calc lb T RATE HTR HR sp HW)|apply (hval_app _ _ _ _ Hv Hx)]|auto| |auto]; auto.
  - intros a Ha. apply in_or_app; auto.
  - intros a Ha. apply in_or_app; auto.
  - cbv beta. intros o Ho. rewrite (hv_hval_l _ _ Hv), (hv_hval_l _ _ Hx) in Ho. rewrite <- C39_optimized_permutation; auto.
    + apply Forall2_len in Hv. lia.
    + apply Forall2_len in Hx. lia.
Qed.
Theorem C40_permutation_var_sound : forall (s inputs : list AV) (len : AV), length s = T -> length inputs <= RATE ->
  sound lb (permutation T RATE s inputs (Some len) sp) (fun o => length o = T)
    (fun sg o => forall n, avs sg len = of_Z p (Z.of_nat n) -> n <= length inputs ->
       map (avs sg) o = poseidon_perm r_f r_p mds cs (add_vec (map (avs sg) s) (F0 :: block_of (firstn n (map (avs sg) inputs))))).
Proof.
  intros s i len Hs Hi. eapply sound_weaken; [eapply (calc_sound (len :: s ++ i) (fun _ => True)), (perm_var_calc lb Hp T RATE HTR HR HRp sp HW)|auto|]; auto.
  - intros a Ha. right. apply in_or_app; auto.
  - intros a Ha. right. apply in_or_app; auto.
  - now left.
  - cbv beta. intros sg o _ H n En Hn. assert (V : val (avs sg len) = Z.of_nat n) by (rewrite En; apply val_of_Z_small; lia).
    rewrite H by (auto; lia). rewrite V, Nat2Z.id. apply C39_optimized_permutation; rewrite ?map_length; auto. rewrite firstn_length. lia.
Qed.

(** ** C41 *)
(** the constant cells of an initialised hasher: the initial state and the hash of the empty message *)
Definition initialised (sg : cell -> Fp) (c : list AV * AV) : Prop :=
  length (fst c) = T /\ map (avs sg) (fst c) = sponge_init T /\ avs sg (snd c) = poseidon_hash T (poseidon_perm r_f r_p mds cs) [].
Lemma init_ok sg c : initialised sg c -> consts_ok T RATE sp c (avs sg).
Proof. intros (_ & H1 & H2). split; auto. rewrite H2, squeeze_hash. reflexivity. Qed.
Theorem C41_initialize : sound lb (hasher_consts T RATE sp) (fun c => length (fst c) = T) (fun sg c => initialised sg c).
Proof.
  eapply sound_weaken; [eapply (calc_sound [] (fun _ => True)), (hasher_consts_calc lb T RATE HTR HR sp HW)|auto|].
  cbv beta. intros sg c Hc H. destruct (H I) as [H1 H2]. split; auto. split; auto. now rewrite H2, squeeze_hash.
Qed.
Theorem C41_hash_fix_len : forall (c : list AV * AV) (inputs : list AV), length (fst c) = T ->
  sound lb (hash_fix_len_array T RATE c inputs sp) (fun _ => True)
    (fun sg o => initialised sg c -> avs sg o = poseidon_hash T (poseidon_perm r_f r_p mds cs) (map (avs sg) inputs)).
Proof.
  intros c i Hc. eapply sound_weaken; [eapply (calc_sound (c2 c ++ i) (fun e => True /\ consts_ok T RATE sp c e)), (hash_fix_calc lb T RATE HTR HR sp HW)|auto|]; auto.
  - intros a Ha. apply in_or_app; auto.
  - intros a Ha. apply in_or_app; auto.
  - cbv beta. intros sg o _ H Hi. rewrite H by (split; auto; now apply init_ok). apply squeeze_hash.
Qed.
(** the variable-length hash is the hash of the first [n] inputs; the bounds say that the length and the rate fit in the field, as the
    range chip requires *)
Definition var_len_bounds (max_len : nat) : Prop :=
  let nb := bit_length (Z.of_nat max_len) in
  (Z.of_nat max_len < 2 ^ 64)%Z /\ (2 ^ Z.of_nat nb + Z.of_nat RATE <= Z.pos p)%Z /\
  S (pad_bits lb (bits (Z.of_nat RATE))) <= CAPACITY p /\ S (pad_bits lb (bits (2 ^ Z.of_nat nb / Z.of_nat RATE + 1))) <= CAPACITY p.
Local Lemma hash_var_c c (inputs : list AV) (len : AV) : length (fst c) = T -> var_len_bounds (length inputs) ->
  calc lb (len :: c2 c ++ inputs) (fun e => consts_ok T RATE sp c e /\ (val (e len) <= Z.of_nat (length inputs))%Z)
    (hash_var_len_array lb T RATE c inputs len sp) (fun _ => True)
    (fun e o => e o = vget (n_squeeze T RATE sp (firstn (Z.to_nat (val (e len))) (map e inputs)) (sponge_init T)) 1) one.
Proof.
  intros Hc (B1 & B2 & B3 & B4). apply (hash_var_calc lb Hp T RATE HTR HR HRp sp HW Hlb Hlb2); auto.
  - intros a Ha. right. apply in_or_app; auto.
  - intros a Ha. right. apply in_or_app; auto.
  - now left.
Qed.
Theorem C41_hash_var_len : forall (c : list AV * AV) (inputs : list AV) (len : AV), length (fst c) = T -> var_len_bounds (length inputs) ->
  sound lb (hash_var_len_array lb T RATE c inputs len sp) (fun _ => True)
    (fun sg o => initialised sg c -> forall n, avs sg len = of_Z p (Z.of_nat n) -> n <= length inputs ->
       avs sg o = poseidon_hash T (poseidon_perm r_f r_p mds cs) (firstn n (map (avs sg) inputs))).
Proof.
  intros c i len Hc HB. eapply sound_weaken; [eapply (calc_sound _ _ _ _ _ _ (hash_var_c c i len Hc HB))|auto|].
  cbv beta. intros sg o _ H Hi n En Hn.
  assert (Z.of_nat n < Z.pos p)%Z.
  { destruct HB as (B1 & B2 & _). cbv zeta in B2. rewrite (bit_length_bits lb Hlb Hlb2) in B2 by lia. pose proof (bits_bound lb Hlb Hlb2 (Z.of_nat (length i)) ltac:(lia)). lia. }
  assert (V : val (avs sg len) = Z.of_nat n) by (rewrite En; apply val_of_Z_small; lia).
  rewrite H by (split; [now apply init_ok|lia]). rewrite V, Nat2Z.id. apply squeeze_hash.
Qed.
(** honest runs of a whole session: initialise, then hash with a fixed and with a witnessed length *)
Theorem C41_complete : forall (a b : list AV) (len : AV) (va vb : list Fp) (n : nat),
  Forall2 hv a va -> Forall2 hv b vb -> hv len (of_Z p (Z.of_nat n)) -> n <= length b -> var_len_bounds (length b) ->
  comp lb (fun rho => Forall (av_ok rho) (len :: a ++ b))
    (c <- hasher_consts T RATE sp ;; x <- hash_fix_len_array T RATE c a sp ;; y <- hash_var_len_array lb T RATE c b len sp ;; ret [x; y])
    (fun o => Forall2 hv o [poseidon_hash T (poseidon_perm r_f r_p mds cs) va; poseidon_hash T (poseidon_perm r_f r_p mds cs) (firstn n vb)])
    (fun rho o => Forall (av_ok rho) o).
Proof.
  intros a b len va vb n Ha Hb Hl Hn HB.
  assert (Hnp : (Z.of_nat n < Z.pos p)%Z).
  { destruct HB as (B1 & B2 & _). cbv zeta in B2. rewrite (bit_length_bits lb Hlb Hlb2) in B2 by lia. pose proof (bits_bound lb Hlb Hlb2 (Z.of_nat (length b)) ltac:(lia)). lia. }
  assert (Vl : val (hval len) = Z.of_nat n) by (rewrite (hv_hval _ _ Hl); apply val_of_Z_small; lia).
  set (PRE := fun e : env (p:=p) => (val (e len) <= Z.of_nat (length b))%Z).
  assert (C : calc lb (len :: a ++ b) PRE
    (c <- hasher_consts T RATE sp ;; x <- hash_fix_len_array T RATE c a sp ;; y <- hash_var_len_array lb T RATE c b len sp ;; ret [x; y])
    (fun _ => True) (fun e o => map e o = [vget (n_squeeze T RATE sp (map e a) (sponge_init T)) 1;
       vget (n_squeeze T RATE sp (firstn (Z.to_nat (val (e len))) (map e b)) (sponge_init T)) 1]) self).
  { eapply calc_bind; [apply (hasher_consts_calc lb T RATE HTR HR sp HW)|]. intros c Hc. cbv beta in Hc.
    eapply calc_bind; [apply (hash_fix_calc lb T RATE HTR HR sp HW _ PRE c a)|]; auto.
    { intros x Hx. apply in_or_app; auto. } { intros x Hx. apply in_or_app. right. right. apply in_or_app; auto. }
    intros x _. eapply calc_bind.
    { eapply calc_mono; [apply (hash_var_c c b len Hc HB)| |].
      - intros z Hz. cbn [In] in Hz. rewrite in_app_iff in Hz. rewrite !in_app_iff. cbn [In]. rewrite in_app_iff. tauto.
      - cbv beta. intros e [[HP HO] _]. split; auto. }
    intros y _. apply calc_ret; auto.
    - intros z [<-|[<-|[]]]; unfold self, one; cbn [app In]; auto.
    - intros e [[_ E1] E2]. cbn [map]. now rewrite E1, E2. }
  destruct C as [_ C]. eapply comp_weaken; [apply C| | |].
  - constructor; [eapply hv_good; eauto|]. apply Forall_app. split; eapply hv_good_l; eauto.
  - unfold PRE. lia.
  - auto.
  - cbv beta. intros o (_ & Hg & E). apply good_hv_l in Hg. unfold self in Hg. rewrite E in Hg.
    rewrite !squeeze_hash, Vl, Nat2Z.id, (hv_hval_l _ _ Ha), (hv_hval_l _ _ Hb) in Hg. exact Hg.
  - auto.
Qed.

(** the sponge: whatever has been absorbed since the last squeeze is padded and absorbed, and the first rate word is returned *)
Theorem C41_sponge_squeeze : forall (g : sponge (p:=p)), length (sg_state g) = T ->
  sound lb (sponge_squeeze T RATE g sp) (fun o => length (sg_state (fst o)) = T /\ sg_absorbing (fst o) = [] /\ sg_init (fst o) = sg_init g)
    (fun sg o => map (avs sg) (sg_state (fst o)) =
         sponge_absorb RATE (poseidon_perm r_f r_p mds cs) (map (avs sg) (sg_state g)) (map (avs sg) (sg_absorbing g)) /\
       avs sg (snd o) = nth 1 (map (avs sg) (sg_state (fst o))) F0).
Proof.
  intros g Hg. unfold sponge_squeeze. eapply sound_bind.
  { eapply (calc_sound (sg_state g ++ sg_absorbing g) (fun _ => True)), (squeeze_calc lb T RATE HTR HR sp HW); auto.
    - intros a Ha. apply in_or_app; auto.
    - intros a Ha. apply in_or_app; auto. }
  cbv beta. intros r [Hr1 Hr2]. apply sound_ret; cbn [fst snd sg_state sg_absorbing sg_init]; auto.
  intros sg H. specialize (H I). rewrite <- squeeze_spec by now rewrite map_length. split; auto.
  pose proof (nth1_e (avs sg) _ _ Hr2) as E. exact E.
Qed.
Theorem C41_sponge : forall (xs ys : list AV),
  sound lb (g <- sponge_from_spec T ;; sponge_squeeze T RATE (sponge_update (sponge_update g xs) ys) sp) (fun _ => True)
    (fun sg o => avs sg (snd o) = poseidon_hash T (poseidon_perm r_f r_p mds cs) (map (avs sg) (xs ++ ys))).
Proof.
  intros xs ys. unfold sponge_from_spec. eapply sound_bind with (P1 := fun g => length (sg_state g) = T /\ sg_absorbing g = [])
    (Q1 := fun sg g => map (avs sg) (sg_state g) = sponge_init T).
  - eapply sound_bind; [eapply (calc_sound [] (fun _ => True)), (ps_default_calc lb T RATE HTR HR)|]. cbv beta. intros init Hi. apply sound_ret; cbn; auto.
  - intros g [Hg1 Hg2]. eapply sound_weaken; [apply C41_sponge_squeeze; exact Hg1|auto|].
    cbn [sponge_update sg_state sg_absorbing sg_init]. rewrite Hg2. cbn [app]. intros sg o _ [H1 H2] H3.
    rewrite H2, H1, H3. unfold poseidon_hash. now replace (T - 1) with RATE by lia.
Qed.

(** compact rows: when every row has the documented shape (boolean flag, at most RATE words, full unless final) the i-th output is the
    hash of the words read so far of the current logical input; in particular of the whole logical input on final rows *)
Definition ci_shape (sg : cell -> Fp) (r : compact_input (p:=p)) : Prop :=
  (avs sg (ci_is_final r) = F0 \/ avs sg (ci_is_final r) = F1) /\ (val (avs sg (ci_len r)) <= Z.of_nat RATE)%Z /\
  (avs sg (ci_is_final r) = F0 -> val (avs sg (ci_len r)) = Z.of_nat RATE).
Definition row_of (sg : cell -> Fp) (r : compact_input (p:=p)) : list Fp * bool * nat :=
  (map (avs sg) (ci_inputs r), negb (Feqb (avs sg (ci_is_final r)) F0), Z.to_nat (val (avs sg (ci_len r)))).
Theorem C41_compact_rows : forall (c : list AV * AV) (rows : list (compact_input (p:=p))), length (fst c) = T ->
  Forall (fun r => length (ci_inputs r) = RATE) rows ->
  sound lb (hash_compact_input T RATE c rows sp) (fun o => length o = length rows)
    (fun sg o => initialised sg c -> Forall (ci_shape sg) rows ->
       map (avs sg) o = compact_hashes (poseidon_hash T (poseidon_perm r_f r_p mds cs)) [] (map (row_of sg) rows)).
Proof.
  intros c rows Hc HF. rewrite Forall_forall in HF.
  eapply sound_weaken; [eapply (calc_sound (fst c ++ flat_map ci_cells rows) (fun e => map e (fst c) = sponge_init T /\ forall r, In r rows -> ci_valid RATE e r)),
    (hash_compact_calc lb Hp T RATE HTR HR HRp sp HW)|auto|]; auto.
  - intros a Ha. apply in_or_app; auto.
  - intros r Hr. split; auto. intros a Ha. apply in_or_app. right. apply in_flat_map. eauto.
  - cbv beta. intros sg o _ H (_ & Hi & _) HS. rewrite Forall_forall in HS. rewrite H by (split; auto).
    assert (SH := squeeze_hash). clear - SH. generalize (@nil Fp). induction rows as [|r rows IH]; intros buf; cbn; auto. rewrite IH. f_equal. unfold nhash. apply SH.
Qed.
(** chunk rows: the hash of the logical input on final rows, zero elsewhere *)
Definition chunk_row_of (sg : cell -> Fp) (r : list (list AV) * AV) : list Fp * bool :=
  (map (avs sg) (concat (fst r)), negb (Feqb (avs sg (snd r)) F0)).
Theorem C41_chunk_rows : forall (c : list AV * AV) (rows : list (list (list AV) * AV)), length (fst c) = T ->
  Forall (fun r => Forall (fun a => length a = RATE) (fst r)) rows ->
  sound lb (hash_compact_chunk_inputs T RATE c rows sp) (fun o => length o = length rows)
    (fun sg o => initialised sg c -> Forall (fun r => avs sg (snd r) = F0 \/ avs sg (snd r) = F1) rows ->
       map (avs sg) o = chunk_hashes (poseidon_hash T (poseidon_perm r_f r_p mds cs)) [] (map (chunk_row_of sg) rows)).
Proof.
  intros c rows Hc HF. rewrite Forall_forall in HF.
  eapply sound_weaken; [eapply (calc_sound (fst c ++ flat_map (fun r => snd r :: concat (fst r)) rows) (fun e => map e (fst c) = sponge_init T /\ forall r, In r rows -> e (snd r) = F0 \/ e (snd r) = F1)),
    (hash_chunks_calc lb Hp T RATE HTR HR sp HW)|auto|]; auto.
  - intros a Ha. apply in_or_app; auto.
  - intros r Hr. split; auto. intros a Ha. apply in_or_app. right. apply in_flat_map. eauto.
  - cbv beta. intros sg o _ H (_ & Hi & _) HS. rewrite Forall_forall in HS. rewrite H by (split; auto).
    assert (SH := squeeze_hash). clear - SH. generalize (@nil Fp). induction rows as [|r rows IH]; intros buf; cbn; auto. rewrite IH. f_equal. unfold nhash. now rewrite SH.
Qed.

(** ** C42. What the constraints do enforce: with a boolean flag, exactly the rows that are NOT final and NOT full. So every row of the
    documented shape is rejected: *)
Theorem C42_valid_rows_refuted : forall (r : compact_input (p:=p)), (Z.of_nat RATE + 1 < 2 ^ 64)%Z -> (Z.of_nat RATE + 1 < Z.pos p)%Z ->
  sound lb (add_validation_constraints lb RATE r) (fun _ => True) (fun sg _ => ~ ci_shape sg r).
Proof.
  intros r H1 H2. unfold add_validation_constraints.
  eapply sound_bind; [apply (is_less_than_safe_sound lb Hp Hlb Hlb2); lia|]. intros _o _.
  eapply sound_bind; [apply (is_equal_pin lb Hp); cbn; auto|]. intros full _.
  eapply sound_bind; [apply (or_pin lb); cbn; auto|]. intros inv _.
  eapply sound_weaken; [apply (sound_assert_is_const lb)|auto|]. cbv beta. cbn [qval].
  intros sg u _ E0 Eor Efull _ (Hb & Hle & Hnf). rewrite E0 in Eor. rewrite Efull in Eor.
  destruct Hb as [Hb|Hb]; rewrite Hb in Eor.
  - specialize (Hnf Hb). unfold Feqb in Eor. rewrite Hnf, val_of_Z, Z.mod_small, Z.eqb_refl in Eor by lia. cbn [fbool] in Eor.
    apply (F1_neq_0 _ Hp). rewrite Eor. ring.
  - apply (F1_neq_0 _ Hp). rewrite Eor. ring.
Qed.
(** Exactly these rows are accepted: not final, not full, with [len] in the range of the check that [is_less_than_safe] makes for its
    argument (its result, [len <= RATE], is dropped). First: nothing else is accepted, whatever the prover does *)
Theorem C42_accepted_rows_sound : forall (r : compact_input (p:=p)), (Z.of_nat RATE + 1 < 2 ^ 64)%Z -> (Z.of_nat RATE + 1 < Z.pos p)%Z ->
  sound lb (add_validation_constraints lb RATE r) (fun _ => True)
    (fun sg _ => avs sg (ci_is_final r) = F0 \/ avs sg (ci_is_final r) = F1 ->
       avs sg (ci_is_final r) = F0 /\ val (avs sg (ci_len r)) <> Z.of_nat RATE /\
       (val (avs sg (ci_len r)) < 2 ^ Z.of_nat (pad_bits lb (bits (Z.of_nat (RATE + 1)))))%Z).
Proof.
  intros r H1 H2. unfold add_validation_constraints.
  eapply sound_bind; [apply (is_less_than_safe_sound lb Hp Hlb Hlb2); lia|]. intros _o _.
  eapply sound_bind; [apply (is_equal_pin lb Hp); cbn; auto|]. intros full _.
  eapply sound_bind; [apply (or_pin lb); cbn; auto|]. intros inv _.
  eapply sound_weaken; [apply (sound_assert_is_const lb)|auto|]. cbv beta. cbn [qval].
  intros sg u _ E0 Eor Efull [HR1 _] Hb. rewrite E0 in Eor. rewrite Efull in Eor.
  destruct Hb as [Hb|Hb]; rewrite Hb in Eor |- *.
  - split; [auto|]. split; [|exact HR1]. intros Hf. unfold Feqb in Eor. rewrite Hf, val_of_Z, Z.mod_small, Z.eqb_refl in Eor by lia. cbn [fbool] in Eor.
    apply (F1_neq_0 _ Hp). rewrite Eor. ring.
  - exfalso. apply (F1_neq_0 _ Hp). rewrite Eor. ring.
Qed.
(** and all of them are: the honest prover's trace of such a row satisfies the constraints *)
Theorem C42_accepted_rows_complete : forall (r : compact_input (p:=p)) (l : F p), (Z.of_nat RATE + 1 < 2 ^ 64)%Z -> (Z.of_nat RATE + 1 < Z.pos p)%Z ->
  (pad_bits lb (bits (Z.of_nat (RATE + 1))) + lb <= CAPACITY p) ->
  hv (ci_is_final r) F0 -> hv (ci_len r) l -> val l <> Z.of_nat RATE -> (val l < 2 ^ Z.of_nat (pad_bits lb (bits (Z.of_nat (RATE + 1)))))%Z ->
  comp lb (fun rho => av_ok rho (ci_is_final r) /\ av_ok rho (ci_len r)) (add_validation_constraints lb RATE r) (fun _ => True) (fun _ _ => True).
Proof.
  intros r l H1 H2 HC' Hf Hl Hn Hr. unfold add_validation_constraints.
  eapply comp_bind; [eapply (is_less_than_safe_comp lb Hp Hlb Hlb2 _ _ l); auto; lia|tauto|]. intros _o _.
  eapply comp_bind; [eapply (is_equal_comp lb Hp (Existing (ci_len r)) (Constant (of_Z p (Z.of_nat RATE)))); [apply qh_existing; eauto|apply qh_const]| |]. { intros rho [[_ A] _]. split; cbn; auto. }
  intros full Hfull. eapply comp_bind; [apply (or_comp lb (Existing (ci_is_final r)) (Existing full) F0 (fbool (Feqb l (of_Z p (Z.of_nat RATE))))); apply qh_existing; [exact Hf|exact Hfull]| |]. { intros rho [[[A B] _] C]. split; cbn; auto. }
  intros inv Hinv'. eapply comp_weaken; [eapply (comp_assert_is_const lb inv F0)|intros rho [_ A]; exact A|auto|auto].
  cbv beta in Hinv'. assert (E : Feqb l (of_Z p (Z.of_nat RATE)) = false). { unfold Feqb. rewrite val_of_Z, Z.mod_small by lia. now apply Z.eqb_neq. }
  rewrite E in Hinv'. cbn [fbool] in Hinv'. replace (F0 + F0 - F0 * F0)%F with (F0 : F p) in Hinv' by ring. exact Hinv'.
Qed.
End PropsPoseidon.
Print Assumptions C39_optimized_permutation.
Print Assumptions C40_permutation_sound.
Print Assumptions C40_permutation_complete.
Print Assumptions C40_permutation_var_sound.
Print Assumptions C41_initialize.
Print Assumptions C41_hash_fix_len.
Print Assumptions C41_hash_var_len.
Print Assumptions C41_complete.
Print Assumptions C41_sponge_squeeze.
Print Assumptions C41_sponge.
Print Assumptions C41_compact_rows.
Print Assumptions C41_chunk_rows.
Print Assumptions C42_valid_rows_refuted.
Print Assumptions C42_accepted_rows_sound.
Print Assumptions C42_accepted_rows_complete.

(** ** examples: the field of 10007 elements, lookup_bits = 3, T = 3, RATE = 2, 2 full rounds and 1 partial round *)
Definition E : positive := 10007%positive.
Definition fe (z : Z) : F E := of_Z E z.
Definition ex_mds : list (list (F E)) := map (map fe) [[2; 1; 3]; [1; 4; 1]; [5; 1; 7]]%Z.
Definition ex_inv : list (list (F E)) := map (map fe) [[1996; 6005; 4005]; [8006; 4003; 6004]; [6008; 8005; 2000]]%Z.
Definition ex_cs : list (list (F E)) := map (map fe) [[1; 2; 3]; [11; 12; 10]; [21; 22; 31]]%Z.
Definition ex_spec := opt_spec_new 3 2 2 1 ex_cs ex_mds ex_inv.
Definition feq_list (a b : list (F E)) : bool := if list_eq_dec Z.eq_dec (map val a) (map val b) then true else false.
Definition ex_perm := poseidon_perm 2 1 ex_mds ex_cs.
Definition ex_hash (l : list Z) : F E := poseidon_hash 3 ex_perm (map fe l).
(** the hypotheses of the section hold *)
Example C39_hypotheses : (2 mod 2 = 0) /\ (length ex_mds = 3 /\ Forall (fun r => length r = 3) ex_mds) /\ Forall (fun c => length c = 3) ex_cs /\
  forallb (fun ab => feq_list (fst ab) (snd ab)) (combine (mat_mul 3 ex_mds ex_inv) (mat_identity 3)) = true /\
  match ex_spec with Some _ => true | None => false end = true.
Proof.
  split; [reflexivity|]. split; [split; [reflexivity|repeat constructor]|]. split; [repeat constructor|]. split; vm_compute; reflexivity.
Qed.
Example C39_example : match ex_spec with
  | Some sp => feq_list (opt_perm 3 sp [fe 5] (map fe [1; 2; 3]%Z)) (ex_perm (map fe [1; 7; 4]%Z))
  | None => false end = true.
Proof. vm_compute. reflexivity. Qed.
(** The construction is not total: for the MDS matrix below (every square submatrix is invertible) it panics although the sparse
    factorisation exists, because the determinant in Cramer's rule refuses matrices of determinant zero. *)
Definition bad_mds : list (list (F E)) := map (map fe) [[2; 1; 1]; [1; 2; 1]; [1; 1; 3]]%Z.
Definition bad_inv : list (list (F E)) := map (map fe) [[5719; 5718; 2859]; [5718; 5719; 2859]; [2859; 2859; 1430]]%Z.
Definition minor2 (m : list (list (F E))) (i j k l : nat) : F E := (ent m i k * ent m j l - ent m i l * ent m j k)%F.
Definition det3 (m : list (list (F E))) : F E := (ent m 0 0 * minor2 m 1 2 1 2 - ent m 0 1 * minor2 m 1 2 0 2 + ent m 0 2 * minor2 m 1 2 0 1)%F.
Theorem C39_construction_total_refuted :
  (forall i j, i < 3 -> j < 3 -> ent bad_mds i j <> F0) /\
  (forall i j k l, i < j < 3 -> k < l < 3 -> minor2 bad_mds i j k l <> F0) /\ det3 bad_mds <> F0 /\
  map (map val) (mat_mul 3 bad_mds bad_inv) = [[1; 0; 0]; [0; 1; 0]; [0; 0; 1]]%Z /\
  (forall r_f c, opt_spec_new 3 2 r_f 2 c bad_mds bad_inv = None).
Proof.
  assert (nz : forall x : F E, Feqb x F0 = false -> x <> F0) by (intros x; apply Feqb_neq).
  split. { intros i j Hi Hj. apply nz. destruct i as [|[|[|]]]; try lia; destruct j as [|[|[|]]]; try lia; vm_compute; reflexivity. }
  split. { intros i j k l Hi Hk. apply nz. destruct j as [|[|[|]]]; try lia; destruct i as [|[|[|]]]; try lia;
           destruct l as [|[|[|]]]; try lia; destruct k as [|[|[|]]]; try lia; vm_compute; reflexivity. }
  split; [apply nz; vm_compute; reflexivity|]. split; [vm_compute; reflexivity|].
  assert (H : calculate_sparse_matrices 3 2 2 bad_mds = None) by (vm_compute; reflexivity).
  intros r_f c. unfold opt_spec_new. rewrite H. now destruct (calculate_optimized_constants 3 r_f 2 c bad_inv).
Qed.
Print Assumptions C39_construction_total_refuted.
Definition lwe (l : list Z) : M E (list (AV E)) := mapM (fun z => load_witness (fe z)) l.
Definition eq_liste (l : list (AV E)) (zs : list (F E)) : bool := if list_eq_dec Z.eq_dec (map avz l) (map val zs) then true else false.
Definition with_spec {A} (f : opt_spec (p:=E) -> M E A) : M E A := match ex_spec return M E A with Some sp => f sp | None => panic end.
Example C40_example : run_ok 3 (with_spec (fun sp => s <- lwe [1; 2; 3]%Z ;; y <- lwe [5; 9]%Z ;; n <- load_witness (fe 1) ;;
    b <- permutation 3 2 s y (Some n) sp ;; ret b)) (fun o => eq_liste o (ex_perm (map fe [1; 7; 4]%Z))) = true.
Proof. vm_compute. reflexivity. Qed.
Definition ex_rows (l : list (AV E)) : list (compact_input (p:=E)) := match l with
  | [a; b; c; d; t; z; n2; n1] => [mkCI [a; b] z n2; mkCI [c; d] t n1] | _ => [] end.
Example C41_fix_example : run_ok 3 (with_spec (fun sp => x <- lwe [1; 2; 3]%Z ;;
    g <- sponge_from_spec 3 ;; q <- sponge_squeeze 3 2 (sponge_update g x) sp ;; ret [snd q])) (fun o => eq_liste o [ex_hash [1; 2; 3]%Z]) = true.
Proof. vm_compute. reflexivity. Qed.
Example C41_var_example : run_ok 3 (with_spec (fun sp => c <- hasher_consts 3 2 sp ;; x <- lwe [1; 2; 3]%Z ;; l <- load_witness (fe 2) ;;
    h <- hash_var_len_array 3 3 2 c x l sp ;; ret [h])) (fun o => eq_liste o [ex_hash [1; 2]%Z]) = true.
Proof. vm_compute. reflexivity. Qed.
Example C41_rows_example : run_ok 3 (with_spec (fun sp => i <- ps_default 3 ;;
    l <- lwe [1; 2; 3; 4; 1; 0; 2; 1]%Z ;; z <- load_zero ;; hash_compact_input 3 2 (i, z) (ex_rows l) sp))
  (fun o => eq_liste o [ex_hash [1; 2]%Z; ex_hash [1; 2; 3]%Z]) = true.
Proof. vm_compute. reflexivity. Qed.
Example C41_bounds_example : var_len_bounds E 3 2 4 /\ var_len_bounds bn254_r 8 2 1000.
Proof. split; unfold var_len_bounds; cbv zeta; repeat split; vm_compute; discriminate || lia. Qed.

(** C42 refuted in the other direction: a row that is neither final nor full, with len = 7 > RATE = 2, is accepted *)
Theorem C42_invalid_row_accepted_refuted : exists (r : compact_input (p:=R)) (s' : st R) (sg : cell -> F R),
  (l <- lw [1; 2; 0; 7]%Z ;; match l with [a; b; f; n] => add_validation_constraints 8 2 (mkCI [a; b] f n) ;;; ret (mkCI [a; b] f n) | _ => panic end)
    (new_ctx false 0 0 0) = Some (r, s') /\ Sat 8 sg s' /\ avs sg (ci_is_final r) = F0 /\ val (avs sg (ci_len r)) = 7%Z.
Proof.
  set (m := l <- lw [1; 2; 0; 7]%Z ;; match l with [a; b; f; n] => add_validation_constraints 8 2 (mkCI [a; b] f n) ;;; ret (mkCI [a; b] f n) | _ => panic end).
  assert (H : attack2_ok 8 m m (fun sg r => Feqb (avs sg (ci_is_final r)) F0 && (val (avs sg (ci_len r)) =? 7)%Z) = true) by (vm_compute; reflexivity).
  apply attack2_ok_spec in H as (r & s' & sg & H1 & H2 & H3). apply andb_true_iff in H3 as [H3 H4].
  exists r, s', sg. split; auto. split; auto. split; [now apply Feqb_eq|now apply Z.eqb_eq].
Qed.
Print Assumptions C42_invalid_row_accepted_refuted.
