(** Joint soundness and completeness of the circuits that compute lookup keys. *)
From Coq Require Import ZArith Znumtheory Lia List Bool Arith Ring.
From Verif Require Import Field Spec Context ContextProofs Utils Logic Gate GateProofs ChainProofs IPProofs BitProofs Derived Calc Range RangeProofs RangeProofs2
  SafeTypes SafeProofs SafeProofs2 Det PoseidonMds PoseidonSpec PoseidonOpt PoseidonOpt2 PoseidonChip PoseidonChipProofs PoseidonChipProofs2 PoseidonChipProofs3
  PoseidonHash PoseidonCompact KecSpec KeySpec KecCircuit KecClaim KecComp KecCompPure.
Import ListNotations.
Local Open Scope nat_scope.
Local Open Scope monad_scope.

Lemma in_chunks {A} n (l : list A) c x : In c (chunks n l) -> In x c -> In x l.
Proof.
  unfold chunks. rewrite in_map_iff. intros (i & <- & _) H. rewrite <- (firstn_skipn (i * n) l). apply in_or_app. right.
  rewrite <- (firstn_skipn n (skipn (i * n) l)). apply in_or_app. now left.
Qed.
Lemma ceil_div_exact q n : 0 < n -> ceil_div (q * n) n = q.
Proof. intros H. unfold ceil_div. replace (q * n + n - 1) with ((n - 1) + q * n) by lia. rewrite Nat.div_add, Nat.div_small by lia. lia. Qed.
Lemma chunk_length_exact {A} n q (l : list A) c : 0 < n -> length l = q * n -> In c (chunks n l) -> length c = n.
Proof.
  intros Hn HL. unfold chunks. rewrite in_map_iff. intros (i & <- & Hi). apply in_seq in Hi.
  assert (E : ceil_div (length l) n = q). { rewrite HL. now apply ceil_div_exact. }
  rewrite E in Hi. rewrite firstn_length, skipn_length. nia.
Qed.
Lemma chunk_length_le {A} n (l : list A) c : In c (chunks n l) -> length c <= n.
Proof. unfold chunks. rewrite in_map_iff. intros (i & <- & Hi). rewrite firstn_length. lia. Qed.
Lemma in_enumerate {A} (l : list A) ic : In ic (enumerate l) -> In (snd ic) l.
Proof. unfold enumerate. destruct ic as [i c]. intros H. eapply in_combine_r. exact H. Qed.
Lemma in_buffer {A} n (x : A) l y : In y (buffer n x l) -> y = x \/ In y l.
Proof. unfold buffer. rewrite in_app_iff. intros [H|H]; auto. apply repeat_spec in H. auto. Qed.
Lemma Forall2_map_eq {A B C} (f : B -> C) (g : A -> C) l l' : Forall2 (fun x y => f y = g x) l l' -> map f l' = map g l.
Proof. induction 1; cbn; congruence. Qed.
Lemma resize_id {A} n (x : A) l : length l = n -> resize n x l = l.
Proof. intros H. unfold resize. rewrite <- H, firstn_all, Nat.sub_diag. apply app_nil_r. Qed.
Lemma resize_buffer {A} n (x : A) l : length l <= n -> resize n x l = buffer n x l.
Proof. intros H. unfold resize, buffer. now rewrite firstn_all2. Qed.

Section KC.
Context {p : positive}.
Add Ring Fring : (F_ring p) (morphism (F_morph p), constants [Fcst]).
Notation Fp := (F p).
Notation AV := (AV p).
Variable lb : nat.
Hypothesis Hp : prime (Z.pos p).
Notation sound := (sound lb).
Notation comp := (comp lb).
Notation calc := (calc lb).
Notation nw := (KecCompPure.nw (p:=p)).
Hypothesis Hnw : 0 < nw /\ 18 mod nw = 0.
Ltac memb := cbn [qin]; unfold self, one in *; rewrite ?in_app_iff; cbn [In]; tauto.

Lemma mults_length : length (words_to_witness_multipliers (p:=p)) = nw.
Proof. unfold words_to_witness_multipliers. cbn [length]. rewrite mult_loop_length. destruct Hnw as [H _]. unfold KecCompPure.nw in *. lia. Qed.
Lemma bmults_length : length (bytes_to_words_multipliers (p:=p)) = 8.
Proof. unfold bytes_to_words_multipliers. cbn [length]. now rewrite mult_loop_length. Qed.
Lemma nw_18 : exists q, 18 = q * nw.
Proof. destruct Hnw as [H0 H]. exists (18 / nw). pose proof (Nat.div_mod 18 nw ltac:(lia)). lia. Qed.

Lemma map_qe_existing e (l : list AV) : map (qe e) (map Existing l) = map e l.
Proof. now rewrite map_map. Qed.
Lemma map_qe_constant e (l : list Fp) : map (qe e) (map Constant l) = l.
Proof. rewrite map_map. apply map_id. Qed.
Lemma ip_calc L (Pre : env -> Prop) (c : list AV) (ms : list Fp) : length c = length ms -> incl c L ->
  calc L Pre (inner_product (map Existing c) (map Constant ms)) (fun _ => True) (fun e o => e o = dot (map e c) ms) one.
Proof.
  intros HL Hi. eapply calc_post; [apply calc_inner_product|auto|].
  - now rewrite !map_length.
  - apply Forall_forall. intros q Hq. apply in_map_iff in Hq as (a & <- & Ha). cbn. auto.
  - apply Forall_forall. intros q Hq. apply in_map_iff in Hq as (a & <- & Ha). cbn. auto.
  - cbv beta. intros e o _ _ ->. now rewrite map_qe_existing, map_qe_constant.
Qed.

(** ** [format_input] *)
Definition cells3 (o : list (list (list AV))) : list AV := flat_map (@concat AV) o.
Lemma format_calc L (Pre : env -> Prop) (bytes : list AV) (len : AV) : incl bytes L -> In len L ->
  calc L Pre (format_input bytes len) (fun o => Forall (Forall (fun r => length r = 2)) o /\ length o = S (length bytes / 136))
    (fun e o => map (map (map e)) o = format_vals (e len) (map e bytes)) cells3.
Proof.
  intros Hb Hl. unfold format_input.
  eapply calc_bind; [apply calc_load_zero|]. intros zero _.
  eapply calc_bind.
  { apply (calc_mapM_fn lb _ _ _ (fun e c => dot (map e c) (firstn (length c) bytes_to_words_multipliers))). intros c Hc.
    apply ip_calc.
    - rewrite firstn_length, bmults_length. apply chunk_length_le in Hc. lia.
    - intros a Ha. pose proof (in_chunks _ _ _ _ Hc Ha) as H. apply in_app_or in H as [H|[<-|[]]]; [apply Hb in H|]; memb. }
  intros words Hwords. cbv beta in Hwords.
  set (wpf := map (fun ic : nat * list AV => (if fst ic =? 0 then len else zero) :: buffer 17 zero (snd ic)) (enumerate (chunks 17 words))).
  assert (W18 : forall ws, In ws wpf -> length ws = 18 /\ forall a, In a ws -> a = len \/ a = zero \/ In a words).
  { unfold wpf. intros ws H. apply in_map_iff in H as (ic & <- & Hic). apply in_enumerate in Hic. split.
    - cbn [length]. rewrite buffer_length; auto. now apply chunk_length_le in Hic.
    - intros a [<-|Ha]; [destruct (_ =? 0); auto|]. apply in_buffer in Ha as [->|Ha]; auto. right. right. eapply in_chunks; eauto. }
  destruct nw_18 as [q Hq].
  eapply calc_bind.
  { apply (calc_mapM lb _ _ _ (fun ws ys => length ys = q) (fun e ws ys => map e ys = map (fun c => dot (map e c) words_to_witness_multipliers) (chunks nw ws)) self).
    intros ws Hws. destruct (W18 ws Hws) as [L18 I18]. eapply calc_post; [apply (calc_mapM_fn lb _ _ _ (fun e c => dot (map e c) words_to_witness_multipliers))| |].
    - intros c Hc. apply ip_calc.
      + rewrite mults_length. eapply chunk_length_exact; [|rewrite L18; exact Hq|exact Hc]. apply Hnw.
      + intros a Ha. pose proof (in_chunks _ _ _ _ Hc Ha) as H. apply I18 in H as [-> | [-> | H]]; memb.
    - cbv beta. intros ys ->. rewrite chunks_len, L18, Hq. apply ceil_div_exact. apply Hnw.
    - auto. }
  cbv beta. intros wits HW. apply calc_ret.
  - split.
    + apply Forall_forall. intros rows Hr. apply in_map_iff in Hr as (ws & <- & _). apply Forall_forall. intros r Hr. apply in_map_iff in Hr as (c & <- & Hc).
      apply buffer_length. now apply chunk_length_le in Hc.
    + rewrite map_length, <- (Forall2_len _ _ _ HW). unfold wpf. rewrite map_length. unfold enumerate. rewrite combine_length, seq_length, chunks_len, Hwords, chunks_len, app_length.
      cbn [length]. rewrite format_blocks. lia.
  - intros a Ha. unfold cells3 in Ha. apply in_flat_map in Ha as (rows & Hr & Ha). apply in_map_iff in Hr as (ws & <- & Hws).
    apply in_concat in Ha as (r & Hr & Ha). apply in_map_iff in Hr as (c & <- & Hc). apply in_buffer in Ha as [->|Ha]; [memb|].
    apply in_or_app. left. apply in_flat_map. exists ws. split; auto. unfold self. eapply in_chunks; eauto.
  - intros e [[[_ Ez] Ew] EW]. unfold format_vals. cbv zeta.
    replace (map (fun c => dot c (firstn (length c) bytes_to_words_multipliers)) (chunks 8 (map e bytes ++ [F0]))) with (map e words).
    2:{ rewrite Ew, <- Ez. change [e zero] with (map e [zero]). rewrite <- map_app, chunks_map, map_map. apply map_ext. intros c. now rewrite map_length. }
    rewrite chunks_map, enumerate_map, !map_map.
    apply Forall2_map_eq in EW. cbv beta in EW.
    transitivity (map (fun vs => map (buffer 2 F0) (chunks 2 vs)) (map (map e) wits)).
    { rewrite map_map. apply map_ext. intros ws. rewrite chunks_map, !map_map. apply map_ext. intros c. now rewrite buffer_map, Ez. }
    rewrite EW. unfold wpf. rewrite !map_map. apply map_ext. intros [i c]. cbn [fst snd]. do 2 f_equal.
    replace ((if i =? 0 then e len else F0) :: buffer 17 F0 (map e c)) with (map e ((if i =? 0 then len else zero) :: buffer 17 zero c)).
    + now rewrite chunks_map, map_map.
    + cbn [map]. rewrite buffer_map, Ez. f_equal. destruct (i =? 0); auto.
Qed.

(** ** the hashers *)
Variable sp : opt_spec (p:=p).
Hypothesis HW : wf_spec 3 sp.
Notation nhash := (nhash 3 2 sp).
Notation consts_ok := (consts_ok 3 2 sp).
Local Lemma H32 : 3 = S 2. Proof. reflexivity. Qed.
Local Lemma H2 : 0 < 2. Proof. lia. Qed.

Lemma map_concat3 (e : AV -> Fp) (o : list (list (list AV))) : map e (flat_map (@concat AV) o) = flat_map (@concat Fp) (map (map (map e)) o).
Proof.
  induction o as [|x o IH]; cbn [flat_map map]; auto. rewrite map_app, IH. f_equal. clear. induction x; cbn [concat map]; auto. rewrite map_app. now f_equal.
Qed.
Lemma fix_len_calc L (Pre : env -> Prop) c (bytes : list AV) : incl (c2 c) L -> incl bytes L -> length (fst c) = 3 ->
  calc L (fun e => Pre e /\ consts_ok c e) (encode_fix_len_bytes_vec c sp bytes) (fun _ => True)
    (fun e o => e o = nhash (flat_map (@concat Fp) (format_vals (of_Z p (Z.of_nat (length bytes))) (map e bytes)))) one.
Proof.
  intros Hc Hb HT. unfold encode_fix_len_bytes_vec.
  eapply calc_bind; [apply calc_load_constant|]. intros len _.
  eapply calc_bind; [apply format_calc|].
  { intros a Ha. apply Hb in Ha. memb. } { memb. }
  intros cs [_ _]. cbv beta.
  eapply calc_post; [eapply calc_mono; [apply (hash_fix_calc lb 3 2 H32 H2 sp HW _ (fun e => (Pre e /\ consts_ok c e) /\ e len = of_Z p (Z.of_nat (length bytes)) /\
      map (map (map e)) cs = format_vals (e len) (map e bytes)) c (flat_map (@concat AV) cs))| |]|auto|]; auto.
  - intros a Ha. apply Hc in Ha. apply in_or_app. right. apply in_or_app. right. exact Ha.
  - intros a Ha. apply in_or_app. left. exact Ha.
  - apply incl_refl.
  - cbv beta. tauto.
  - cbv beta. intros e o _ [[_ El] Ef] ->. now rewrite map_concat3, Ef, El.
Qed.

(** ** the variable-length encoding *)
Lemma calc_select_by_indicator L (Pre : env -> Prop) (a ind : list AV) : length a = length ind -> incl a L -> incl ind L ->
  (forall e, Pre e -> onehot (map e ind)) ->
  calc L Pre (select_by_indicator (map Existing a) ind) (fun _ => True) (fun e o => e o = dot (map e a) (map e ind)) one.
Proof.
  intros HL Ha Hi HO. split.
  - eapply sound_weaken; [apply select_by_indicator_sound; now rewrite map_length|auto|]. cbv beta. intros sg o _ (xs & Fx & E) _. rewrite E. f_equal.
    clear - Fx. remember (map Existing a) as l. revert a Heql. induction Fx as [|q v l xs Hq Fx IH]; intros [|z a]; cbn; try discriminate; auto. intros E. injection E as -> ->.
    cbn in Hq. f_equal; [congruence|auto].
  - intros HG HPre. rewrite Forall_forall in HG.
    assert (Fa : Forall2 hv a (map hval a)) by (apply good_hv_l, Forall_forall; auto). assert (Fi : Forall2 hv ind (map hval ind)) by (apply good_hv_l, Forall_forall; auto).
    eapply comp_weaken; [apply (select_by_indicator_comp lb Hp (map Existing a) ind (map hval a) (map hval ind))| | |]; auto.
    + clear - Fa. remember (map hval a) as v. clear Heqv. induction Fa; cbn; constructor; auto using qh_existing.
    + now rewrite map_length.
    + cbv beta. intros rho HF. rewrite Forall_forall in HF. split; apply Forall_forall; auto. intros q Hq. apply in_map_iff in Hq as (x & <- & Hx). cbn. auto.
    + cbv beta. intros o Ho. split; auto. split; [apply Forall_cons; [eapply hv_good; eauto|auto]|eapply hv_hval; eauto].
    + cbv beta. intros rho o _ _ H. apply Forall_cons; auto.
Qed.
Lemma ensure_pad_calc L (Pre : env -> Prop) (bytes : list AV) (len : AV) : (Z.of_nat (length bytes) < Z.pos p)%Z -> incl bytes L -> In len L ->
  (forall e, Pre e -> (val (e len) <= Z.of_nat (length bytes))%Z) ->
  calc L Pre (var_len_ensure_0_padding bytes len) (fun o => length (fst o) = length bytes /\ snd o = len)
    (fun e o => let n := Z.to_nat (val (e len)) in map e (fst o) = firstn n (map e bytes) ++ repeat F0 (length bytes - n)) (fun o => fst o).
Proof.
  intros Hlt Hb Hl HPre. unfold var_len_ensure_0_padding, var_len_new. split.
  - eapply sound_bind; [apply (ensure_0_padding_sound Hp lb); auto|]. cbv beta. intros b Lb.
    apply sound_lift_bind. intros v Ev. apply sound_assert_bind. intros _. apply sound_assert_bind. intros _.
    apply sound_ret; [split; auto|]. cbn [fst]. intros sg H HP. apply H. auto.
  - intros HG HP. rewrite Forall_forall in HG. pose proof (HPre _ HP) as HV. pose proof (val_bounds p (hval len)) as VB.
    set (n := Z.to_nat (val (hval len))).
    assert (Fb : Forall2 hv bytes (map hval bytes)) by (apply good_hv_l, Forall_forall; auto).
    assert (En : hval len = of_Z p (Z.of_nat n)) by (unfold n; rewrite Z2Nat.id by lia; symmetry; apply of_Z_val).
    pose proof (HG _ Hl) as Gl. unfold good in Gl.
    eapply comp_bind; [apply (ensure_0_padding_comp Hp lb bytes (map hval bytes) len n); auto; [rewrite <- En; auto|lia]| |].
    { cbv beta. intros rho HF. rewrite Forall_forall in HF. split; auto. apply Forall_forall; auto. }
    cbv beta. intros b Fo. pose proof (Forall2_len _ _ _ Fo) as Lo. rewrite app_length, firstn_length, repeat_length, map_length in Lo.
    eapply comp_lift_bind; [destruct Gl as [Gv _]; unfold av_value; rewrite Gv; reflexivity|]. eapply comp_assert_bind; [|eapply comp_assert_bind].
    + apply Z.leb_le. rewrite val_of_Z_small by lia. auto.
    + apply Nat.eqb_eq. lia.
    + apply comp_ret; cbn [fst snd].
      * split; [split; auto; lia|]. split; [eapply hv_good_l; eauto|]. rewrite (hv_hval_l _ _ Fo). fold n. reflexivity.
      * intros rho H. tauto.
Qed.
Lemma chunk_hashes_length (h : list Fp -> Fp) rows : forall buf, length (chunk_hashes h buf rows) = length rows.
Proof. induction rows as [|[xs f] rows IH]; intros buf; cbn [chunk_hashes length]; auto. Qed.
Lemma chunk_onehot (h : list Fp -> Fp) (n : nat) : forall (xs : list (list Fp)) k buf, k <= n < k + length xs ->
  nth (n - k) (chunk_hashes h buf (combine xs (map (fun j => n =? j) (seq k (length xs))))) F0 = h (buf ++ concat (firstn (S (n - k)) xs)).
Proof.
  induction xs as [|x xs IH]; intros k buf Hk; cbn [length] in Hk; [lia|]. cbn [length seq map combine chunk_hashes].
  destruct (Nat.eqb_spec n k) as [<-|Hne].
  - rewrite Nat.sub_diag. cbn [nth firstn concat]. now rewrite app_nil_r.
  - destruct (n - k) as [|m] eqn:E; [lia|]. cbn [nth]. replace m with (n - S k) by lia. rewrite IH by lia.
    cbn [firstn concat]. now rewrite <- app_assoc.
Qed.
Lemma map_ch_row (e : AV -> Fp) cs (ind : list AV) : map (ch_row e) (combine cs ind) =
  combine (map (fun c => map e (concat c)) cs) (map (fun a => negb (Feqb (e a) F0)) ind).
Proof. revert ind. induction cs as [|c cs IH]; intros [|a ind]; cbn [combine map]; auto. rewrite IH. reflexivity. Qed.
Lemma map_concat1 (e : AV -> Fp) (c : list (list AV)) : map e (concat c) = concat (map (map e) c).
Proof. induction c; cbn [concat map]; auto. rewrite map_app. now f_equal. Qed.
Hypothesis Hlb : 1 <= lb < 64.
Hypothesis Hlb2 : 2 * lb <= CAPACITY p.
Definition key_len_bounds (max_len : nat) : Prop :=
  let nb := bit_length (Z.of_nat max_len) in
  (Z.of_nat max_len < 2 ^ 64)%Z /\ (2 ^ Z.of_nat nb + 136 <= Z.pos p)%Z /\
  S (pad_bits lb (bits 136)) <= CAPACITY p /\ S (pad_bits lb (bits (2 ^ Z.of_nat nb / 136 + 1))) <= CAPACITY p.
Lemma var_len_calc L (Pre : env -> Prop) c (bytes : list AV) (len : AV) : incl (c2 c) L -> incl bytes L -> In len L -> length (fst c) = 3 ->
  key_len_bounds (length bytes) ->
  (forall e, Pre e -> consts_ok c e /\ (val (e len) <= Z.of_nat (length bytes))%Z) ->
  calc L Pre (encode_var_len_bytes_vec lb c sp bytes len) (fun _ => True)
    (fun e o => let n := Z.to_nat (val (e len)) in
       e o = nhash (concat (firstn (S (n / 136)) (map (@concat Fp) (format_vals (e len) (firstn n (map e bytes) ++ repeat F0 (length bytes - n))))))) one.
Proof.
  intros Hc Hb Hl HT HB HPre. unfold encode_var_len_bytes_vec. destruct HB as (B1 & B2 & B3 & B4). set (N := length bytes) in *.
  set (nb := bit_length (Z.of_nat N)) in *.
  assert (Hnb : (Z.of_nat N < 2 ^ Z.of_nat nb)%Z). { unfold nb. rewrite (bit_length_bits lb Hlb Hlb2) by lia. apply (bits_bound lb Hlb Hlb2); lia. }
  eapply calc_bind; [apply (div_mod_calc lb Hp 3 2 H32 H2 Hlb Hlb2 L Pre len 136 nb)|]; auto; try lia.
  { intros e HP. destruct (HPre e HP). lia. }
  intros d _. eapply calc_bind; [apply (calc_idx_to_indicator lb Hp)|]. { now left. }
  intros ind Lind. cbv beta in Lind.
  eapply calc_bind; [apply (ensure_pad_calc _ _ bytes len)|].
  { fold N. lia. } { intros a Ha. apply Hb in Ha. rewrite !in_app_iff. auto. } { rewrite !in_app_iff. auto. }
  { intros e [[HP _] _]. apply HPre. auto. }
  intros b [Lb ->]. eapply calc_bind; [apply (format_calc _ _ (fst b) len)|].
  { intros a Ha. rewrite !in_app_iff. auto. } { rewrite !in_app_iff. auto. }
  intros cs [F2 Lcs]. cbv beta. rewrite Lb in Lcs. fold N in Lcs.
  unfold get_num_keccak_f in Lind. fold N in Lind. rewrite Nat.add_1_r in Lind.
  assert (Lr : length (combine cs ind) = S (N / 136)) by (rewrite combine_length; lia).
  set (PR := fun e : env => ((((Pre e /\ val (e (fst d)) = (val (e len) / 136)%Z /\ val (e (snd d)) = (val (e len) mod 136)%Z) /\ map e ind = idx_ind (e (fst d)) (get_num_keccak_f N)) /\
     (let n := Z.to_nat (val (e len)) in map e (fst b) = firstn n (map e bytes) ++ repeat F0 (length bytes - n))) /\ map (map (map e)) cs = format_vals (e len) (map e (fst b)))).
  assert (NK : (Z.of_nat (get_num_keccak_f N) <= Z.pos p)%Z).
  { unfold get_num_keccak_f. assert (N / 136 <= N) by (apply Nat.div_le_upper_bound; lia). lia. }
  assert (IND : forall e, PR e -> let n := Z.to_nat (val (e len)) in map e ind = map (fun j => fbool (Z.of_nat (n / 136) =? Z.of_nat j)%Z) (seq 0 (S (N / 136))) /\ n / 136 < S (N / 136)).
  { intros e [[[[HP [D1 _]] EI] _] _] n. destruct (HPre e HP) as [_ Hn]. pose proof (val_bounds p (e len)) as VB. fold N in Hn. split.
    - rewrite EI, idx_ind_eq by auto. unfold get_num_keccak_f. rewrite Nat.add_1_r. apply map_ext. intros j. do 2 f_equal. rewrite D1. unfold n.
      rewrite Z2Nat.inj_div by lia. reflexivity.
    - assert (n / 136 <= N / 136) by (apply Nat.div_le_mono; unfold n; lia). lia. }
  eapply calc_bind.
  { apply (hash_chunks_calc lb Hp 3 2 H32 H2 sp HW _ PR c (combine cs ind)); auto.
    - intros a Ha. rewrite !in_app_iff. do 4 right. apply Hc. now right.
    - intros [x f] Hx. split.
      + cbn [fst snd]. intros a [<-|Ha].
        * apply in_combine_r in Hx. rewrite !in_app_iff. unfold self. auto.
        * apply in_or_app. left. unfold cells3. apply in_flat_map. exists x. split; auto. eapply in_combine_l; eauto.
      + cbn [fst]. apply in_combine_l in Hx. rewrite Forall_forall in F2. auto.
    - intros e HE. split.
      + destruct HE as [[[[HP _] _] _] _]. apply HPre in HP as [[HC _] _]. exact HC.
      + intros [x f] Hx. cbn [snd]. apply in_combine_r in Hx. destruct (IND e HE) as [EI _]. apply (in_map e) in Hx. rewrite EI in Hx.
        apply in_map_iff in Hx as (j & <- & _). destruct (_ =? _)%Z; cbn [fbool]; auto. }
  intros outs Louts. cbv beta in Louts. rewrite Lr in Louts.
  eapply calc_post; [apply (calc_select_by_indicator _ (fun e => PR e /\ map e outs = chunk_hashes nhash [] (map (ch_row e) (combine cs ind))) outs ind)|auto|].
  - lia.
  - intros a Ha. apply in_or_app. left. exact Ha.
  - intros a Ha. rewrite !in_app_iff. unfold self. auto.
  - intros e [HE _]. destruct (IND e HE) as [-> _]. apply idx_onehot.
  - cbv beta zeta. intros e o _ [HE EO] ->. destruct (IND e HE) as [EI Hn]. cbv zeta in EI. set (n := Z.to_nat (val (e len))) in *.
    rewrite EI. replace (S (N / 136)) with (length (map e outs)) by (rewrite map_length; lia). rewrite dot_onehot. cbn [Nat.leb]. rewrite Nat.sub_0_r, EO, map_ch_row.
    replace (map (fun a => negb (Feqb (e a) F0)) ind) with (map (fun j => n / 136 =? j) (seq 0 (length (map (fun c => map e (concat c)) cs)))).
    + pose proof (chunk_onehot nhash (n / 136) (map (fun c => map e (concat c)) cs) 0 []) as CO. rewrite Nat.sub_0_r in CO. rewrite CO by (rewrite map_length; lia). cbn [app].
      f_equal. f_equal. f_equal. destruct HE as [[_ EB] EF]. cbv zeta in EB. fold n in EB. rewrite EB in EF.
      unfold N in *. rewrite <- EF, !map_map. apply map_ext. intros x. now rewrite map_concat1.
    + rewrite map_length, Lcs. transitivity (map (fun x => negb (Feqb x F0)) (map e ind)); [|now rewrite map_map].
      rewrite EI, map_map. apply map_ext. intros j. assert (EQ : (Z.of_nat (n / 136) =? Z.of_nat j)%Z = (n / 136 =? j)).
      { destruct (Nat.eqb_spec (n / 136) j); [apply Z.eqb_eq; lia|apply Z.eqb_neq; lia]. }
      rewrite EQ. destruct (n / 136 =? j); cbn [fbool].
      * symmetry. apply negb_true_iff. apply Feqb_neq. apply F1_neq_0. exact Hp.
      * symmetry. apply negb_false_iff. now apply Feqb_eq.
Qed.
End KC.
