(** Property theorems C67-C71 about the Keccak component: lookup keys, shard circuit, native outputs, parameters, ingestion.
    Reading guide: see PropsGate.v; the specification is KeySpec.v (keys), PoseidonSpec.v (the hash) and KecSpec.v (Keccak-256). *)
From Coq Require Import ZArith Znumtheory Lia List Bool Arith.
From Verif Require Import Field Spec Context ContextProofs Utils Logic Gate GateProofs ChainProofs IPProofs BitProofs PowProofs SatCheck Derived Calc PropsGate
  Range RangeProofs RangeProofs2 PropsRange SafeTypes SafeProofs SafeProofs2 Det PoseidonMds PoseidonSpec PoseidonOpt PoseidonOpt2 PoseidonChip
  PoseidonChipProofs PoseidonChipProofs2 PoseidonChipProofs3 PoseidonHash PoseidonCompact PropsSafe PropsPoseidon
  KecSpec KeySpec KecCircuit KecClaim KecComp KecCompPure KecCompProofs KecShard KecKeyInj.
Import ListNotations.
Local Open Scope nat_scope.
Local Open Scope monad_scope.

Lemma Forall2_In_l {A B} (P : A -> B -> Prop) l l' x : Forall2 P l l' -> In x l -> exists y, In y l' /\ P x y.
Proof. induction 1 as [|a b l l' H _ IH]; [intros []|]. intros [<-|Hx]; [exists b; split; [now left|auto]|]. destruct (IH Hx) as (y & Hy & Py). exists y. split; [now right|auto]. Qed.

Lemma flat_map_map {A B C} (f : B -> list C) (g : A -> B) l : flat_map f (map g l) = flat_map (fun x => f (g x)) l.
Proof. induction l as [|x l IH]; cbn [flat_map map]; [reflexivity|now rewrite IH]. Qed.

Opaque keccak256 digest_lo digest_hi poseidon_hash.
Section PropsKecComp.
Context (p : positive) (lb : nat) (Hp : prime (Z.pos p)) (Hlb : 1 <= lb < 64) (Hlb2 : 2 * lb <= CAPACITY p).
Notation Fp := (F p).
Notation AV := (AV p).
(** the Poseidon parameters, as in PropsPoseidon with state 3 and rate 2 *)
Context (r_f r_p : nat) (cs : list (list Fp)) (mds mds_inv : list (list Fp)) (sp : opt_spec (p:=p)).
Context (Hrf : r_f mod 2 = 0) (HM : length mds = 3 /\ Forall (fun r => length r = 3) mds) (HC : Forall (fun c => length c = 3) cs)
  (Hinv : mat_mul 3 mds mds_inv = mat_identity 3) (Hnew : opt_spec_new 3 2 r_f r_p cs mds mds_inv = Some sp).
(** words of 64 bits that fit in a field element (3 for the scalar field of BN254); they divide the 18 words of a block *)
Context (Hnw : 0 < CAPACITY p / 64 /\ 18 mod (CAPACITY p / 64) = 0).
Definition hash (l : list Fp) : Fp := poseidon_hash 3 (poseidon_perm r_f r_p mds cs) l.
Definition key (msg : list Z) : Fp := hash (key_input p (CAPACITY p / 64) msg).
Definition hasher_ready (sg : cell -> Fp) (c : list AV * AV) : Prop := initialised p 3 r_f r_p cs mds sg c.

Local Lemma H32 : 3 = S 2. Proof. reflexivity. Qed.
Local Lemma H2 : 0 < 2. Proof. lia. Qed.
Local Lemma HW : wf_spec 3 sp.
Proof. eapply opt_spec_wf; eauto. Qed.
Local Lemma nhash_eq l : nhash 3 2 sp l = hash l.
Proof. unfold nhash, hash. apply (squeeze_hash p lb Hp Hlb Hlb2 3 2 r_f r_p cs mds mds_inv sp H32 H2 Hrf HM HC Hinv Hnew). Qed.

Local Lemma ready_ok sg c : hasher_ready sg c -> consts_ok 3 2 sp c (avs sg).
Proof. apply (init_ok p lb Hp Hlb Hlb2 3 2 r_f r_p cs mds mds_inv sp H32 H2 Hrf HM HC Hinv Hnew). Qed.
(** the elements formatted by the circuit are the specified ones *)
Local Lemma fix_elements msg : flat_map (@concat Fp) (format_vals (of_Z p (Z.of_nat (length msg))) (map (of_Z p) msg)) = key_input p (CAPACITY p / 64) msg.
Proof.
  pose proof (format_vals_spec (p:=p) msg 0 (proj1 Hnw)) as E. cbn [repeat] in E. rewrite app_nil_r in E. rewrite E, Nat.add_0_r.
  unfold key_input. rewrite !flat_map_concat_map, map_map. f_equal. apply map_ext. intros b. rewrite <- flat_map_concat_map. apply key_block_pad.
Qed.
Local Lemma var_elements msg k : concat (firstn (S (length msg / 136)) (map (@concat Fp) (format_vals (of_Z p (Z.of_nat (length msg))) (map (of_Z p) msg ++ repeat F0 k)))) =
  key_input p (CAPACITY p / 64) msg.
Proof.
  rewrite (format_vals_spec (p:=p) msg k (proj1 Hnw)), map_map.
  rewrite firstn_map. unfold key_input. rewrite flat_map_concat_map. f_equal.
  assert (E : firstn (S (length msg / 136)) (seq 0 (S ((length msg + k) / 136))) = seq 0 (S (length msg / 136))).
  { assert (length msg / 136 <= (length msg + k) / 136) by (apply Nat.div_le_mono; lia).
    replace (S ((length msg + k) / 136)) with (S (length msg / 136) + ((length msg + k) / 136 - length msg / 136)) by lia.
    rewrite seq_app, firstn_app, seq_length, Nat.sub_diag, firstn_O, app_nil_r. apply firstn_all2. rewrite seq_length. lia. }
  rewrite E. apply map_ext. intros b. rewrite <- flat_map_concat_map. apply key_block_pad.
Qed.
Local Lemma bounds_lt (bytes : list AV) : key_len_bounds (p:=p) lb (length bytes) -> (Z.of_nat (length bytes) < Z.pos p)%Z.
Proof.
  intros (B1 & B2 & _). rewrite (bit_length_bits lb Hlb Hlb2) in B2 by lia. pose proof (bits_bound lb Hlb Hlb2 (Z.of_nat (length bytes)) ltac:(lia)). lia.
Qed.

(** ** C67: the lookup keys computed in a circuit *)
Theorem C67_encode_fix_len_sound : forall (c : list AV * AV) (bytes : list AV), length (fst c) = 3 ->
  sound lb (encode_fix_len_bytes_vec c sp bytes) (fun _ => True)
    (fun sg o => hasher_ready sg c -> forall msg, map (avs sg) bytes = map (of_Z p) msg -> avs sg o = key msg).
Proof.
  intros c bytes Hc. eapply sound_weaken; [eapply (calc_sound p lb (c2 c ++ bytes) (fun e => True /\ consts_ok 3 2 sp c e)), (fix_len_calc lb Hnw sp HW)|auto|]; auto.
  - intros a Ha. apply in_or_app. now left.
  - intros a Ha. apply in_or_app. now right.
  - cbv beta. intros sg o _ H Hr msg E. rewrite H by (split; [exact I|now apply ready_ok]). rewrite nhash_eq, E.
    assert (EL : length bytes = length msg) by (rewrite <- (map_length (avs sg)), E; apply map_length). rewrite EL. unfold key. now rewrite fix_elements.
Qed.
Theorem C67_encode_var_len_sound : forall (c : list AV * AV) (bytes : list AV) (len : AV), length (fst c) = 3 -> key_len_bounds (p:=p) lb (length bytes) ->
  sound lb (encode_var_len_bytes_vec lb c sp bytes len) (fun _ => True)
    (fun sg o => hasher_ready sg c -> forall msg, avs sg len = of_Z p (Z.of_nat (length msg)) -> length msg <= length bytes ->
       firstn (length msg) (map (avs sg) bytes) = map (of_Z p) msg -> avs sg o = key msg).
Proof.
  intros c bytes len Hc HB. pose proof (bounds_lt bytes HB) as HP.
  eapply sound_weaken; [eapply (calc_sound p lb (len :: c2 c ++ bytes) (fun e => consts_ok 3 2 sp c e /\ (val (e len) <= Z.of_nat (length bytes))%Z)), (var_len_calc lb Hp Hnw sp HW Hlb Hlb2)|auto|]; auto.
  - intros a Ha. right. apply in_or_app. now left.
  - intros a Ha. right. apply in_or_app. now right.
  - now left.
  - cbv beta zeta. intros sg o _ H Hr msg El Hn E.
    assert (V : val (avs sg len) = Z.of_nat (length msg)) by (rewrite El; apply val_of_Z_small; lia).
    rewrite H by (split; [now apply ready_ok|lia]). rewrite nhash_eq, V, Nat2Z.id, E, El. unfold key. now rewrite var_elements.
Qed.
(** honest runs: initialise the hasher, then the key of a vector of fixed length and that of a vector of witnessed length *)
Theorem C67_encode_complete : forall (a b : list AV) (len : AV) (ma mb : list Z) (vb : list Fp),
  Forall2 hv a (map (of_Z p) ma) -> Forall2 hv b vb -> hv len (of_Z p (Z.of_nat (length mb))) -> length mb <= length b ->
  firstn (length mb) vb = map (of_Z p) mb -> key_len_bounds (p:=p) lb (length b) ->
  comp lb (fun rho => Forall (av_ok rho) (len :: a ++ b))
    (c <- hasher_consts 3 2 sp ;; x <- encode_fix_len_bytes_vec c sp a ;; y <- encode_var_len_bytes_vec lb c sp b len ;; ret [x; y])
    (fun o => Forall2 hv o [key ma; key mb]) (fun rho o => Forall (av_ok rho) o).
Proof.
  intros a b len ma mb vb Ha Hb Hl Hn Ef HB. pose proof (bounds_lt b HB) as HP.
  assert (Vl : val (hval len) = Z.of_nat (length mb)) by (rewrite (hv_hval _ _ Hl); apply val_of_Z_small; lia).
  set (PRE := fun e : env (p:=p) => (val (e len) <= Z.of_nat (length b))%Z).
  assert (C : calc lb (len :: a ++ b) PRE
    (c <- hasher_consts 3 2 sp ;; x <- encode_fix_len_bytes_vec c sp a ;; y <- encode_var_len_bytes_vec lb c sp b len ;; ret [x; y])
    (fun _ => True) (fun e o => map e o = [nhash 3 2 sp (flat_map (@concat Fp) (format_vals (of_Z p (Z.of_nat (length a))) (map e a)));
       let n := Z.to_nat (val (e len)) in
       nhash 3 2 sp (concat (firstn (S (n / 136)) (map (@concat Fp) (format_vals (e len) (firstn n (map e b) ++ repeat F0 (length b - n))))))]) self).
  { eapply calc_bind; [apply (hasher_consts_calc lb 3 2 H32 H2 sp HW)|]. intros c Hc. cbv beta in Hc.
    eapply calc_bind; [apply (fix_len_calc lb Hnw sp HW _ PRE c a)|]; auto.
    { intros x Hx. apply in_or_app. now left. } { intros x Hx. apply in_or_app. right. right. apply in_or_app. now left. }
    intros x _. eapply calc_bind.
    { apply (var_len_calc lb Hp Hnw sp HW Hlb Hlb2 _ _ c b len); auto.
      - intros z Hz. apply in_or_app. right. apply in_or_app. now left.
      - intros z Hz. apply in_or_app. right. apply in_or_app. right. right. apply in_or_app. now right.
      - apply in_or_app. right. apply in_or_app. right. now left.
      - intros e [[HPe HO] _]. split; auto. }
    intros y _. apply calc_ret; auto.
    - intros z Hz. cbn [In] in Hz. destruct Hz as [<-|[<-|[]]]; apply in_or_app; [right; apply in_or_app; left|left]; now left.
    - intros e [[_ E1] E2]. cbn [map]. rewrite E1, E2. reflexivity. }
  destruct C as [_ C]. eapply comp_weaken; [apply C| | |].
  - apply Forall_cons; [eapply hv_good; eauto|]. apply Forall_app. split; eapply hv_good_l; eauto.
  - unfold PRE. lia.
  - auto.
  - cbv beta zeta. intros o (_ & Hg & E). apply good_hv_l in Hg. unfold self in Hg. rewrite E in Hg. rewrite Vl, Nat2Z.id in Hg.
    rewrite (hv_hval_l _ _ Ha), (hv_hval_l _ _ Hb), (hv_hval _ _ Hl), Ef, !nhash_eq, var_elements in Hg.
    assert (EL : length a = length ma) by (rewrite (Forall2_len _ _ _ Ha); apply map_length). rewrite EL, fix_elements in Hg. exact Hg.
  - auto.
Qed.

(** ** C68: the shard circuit *)
Definition dummy_output : Fp * Fp * Fp := spec_output hash (CAPACITY p / 64) [].
(** what the circuit publishes for a list of outputs (key, low half, high half): the three columns, or the hash of all of them *)
Definition published (raw : bool) (outs : list (Fp * Fp * Fp)) : list (list Fp) :=
  if raw then [map (fun o => fst (fst o)) outs; map (fun o => snd (fst o)) outs; map snd outs]
  else [[hash (flat_map (fun o => [fst (fst o); snd (fst o); snd o]) outs)]].
(** the outputs for messages with declared digests: the dummy output for the blocks but the last, then the key and the digest *)
Definition declared_outputs (ds : list (list Z * Z * Z)) : list (Fp * Fp * Fp) :=
  flat_map (fun d => repeat dummy_output (length (fst (fst d)) / 136) ++ [(key (fst (fst d)), of_Z p (snd (fst d)), of_Z p (snd d))]) ds.
Definition declares_all (lds : list (kloaded p)) (ds : list (list Z * Z * Z)) : Prop :=
  exists groups, lds = concat groups /\ Forall2 (fun g d => kdeclares g (fst (fst d)) (snd (fst d)) (snd d)) groups ds.

Local Lemma dummy_eq : dummy_circuit_output hash = dummy_output.
Proof. unfold dummy_circuit_output, native_output, dummy_output, spec_output. f_equal. f_equal. apply (encode_native_spec (p:=p)). apply Hnw. Qed.
Local Lemma final_bool lds ds ld : declares_all lds ds -> In ld lds -> ld_final ld = F0 \/ ld_final ld = F1.
Proof.
  intros (groups & -> & HD) Hin. apply in_concat in Hin as (g & Hg & Hl). destruct (Forall2_In_l _ _ _ _ HD Hg) as (d & _ & _ & Hd).
  apply In_nth_error in Hl as (j & Hj). destruct (Hd j ld Hj) as (_ & _ & Hf & _). rewrite Hf. destruct (j =? _); [right|left]; reflexivity.
Qed.
Local Lemma chunk_hashes_ext (h h' : list Fp -> Fp) rows : (forall l, h l = h' l) -> forall buf, chunk_hashes h buf rows = chunk_hashes h' buf rows.
Proof. intros E. induction rows as [|[x f] rows IH]; intros buf; cbn [chunk_hashes]; auto. rewrite IH. destruct f; [now rewrite E|reflexivity]. Qed.
Local Lemma instances_eq raw lds ds : declares_all lds ds ->
  instances_of (nhash 3 2 sp) raw (final_outs (nhash 3 2 sp) (dummy_circuit_output hash) [] F1 lds) = published raw (declared_outputs ds).
Proof.
  intros (groups & -> & HD). unfold final_outs. rewrite (chunk_hashes_ext _ hash) by (apply nhash_eq).
  fold (final_outs hash (dummy_circuit_output hash) [] F1 (concat groups)). rewrite (groups_outs Hnw Hp hash _ groups ds HD), dummy_eq.
  unfold instances_of, published. fold (declared_outputs ds). destruct raw; [reflexivity|]. rewrite nhash_eq. reflexivity.
Qed.
Theorem C68_shard_sound : forall (capacity : nat) (raw : bool) (lfs : list (loaded_f (p:=p))),
  length lfs = capacity -> Forall (fun l => length (lf_words l) = 17) lfs ->
  sound lb (shard_instances (dummy_circuit_output hash) sp capacity raw lfs) (fun _ => True)
    (fun sg o => forall ds, declares_all (map (lf_val (avs sg)) lfs) ds -> map (map (avs sg)) o = published raw (declared_outputs ds)).
Proof.
  intros capacity raw lfs Hcap HF.
  eapply sound_weaken; [eapply (calc_sound p lb (flat_map lf_cells lfs) (finals_bool lfs)), (shard_calc Hnw Hp lb sp HW)|auto|]; auto.
  cbv beta. intros sg o _ H ds HD. rewrite H.
  - now apply instances_eq.
  - intros l Hl. apply (final_bool _ ds (lf_val (avs sg) l) HD). now apply in_map.
Qed.
Theorem C68_shard_complete : forall (capacity : nat) (raw : bool) (lfs : list (loaded_f (p:=p))) ds,
  length lfs = capacity -> Forall (fun l => length (lf_words l) = 17) lfs -> Forall good (flat_map lf_cells lfs) ->
  declares_all (map (lf_val hval) lfs) ds ->
  comp lb (fun rho => Forall (av_ok rho) (flat_map lf_cells lfs)) (shard_instances (dummy_circuit_output hash) sp capacity raw lfs)
    (fun o => Forall2 (Forall2 hv) o (published raw (declared_outputs ds))) (fun rho o => Forall (av_ok rho) (concat o)).
Proof.
  intros capacity raw lfs ds Hcap HF HG HD.
  destruct (shard_calc Hnw Hp lb sp HW (finals_bool lfs) (dummy_circuit_output hash) capacity raw lfs Hcap HF (fun e H => H)) as [_ C].
  eapply comp_weaken; [apply C; auto| | |auto].
  - intros l Hl. apply (final_bool _ ds (lf_val hval l) HD). now apply in_map.
  - auto.
  - cbv beta. intros o (_ & Hg & E). rewrite <- (instances_eq raw _ ds HD), <- E. clear - Hg. induction o as [|x o IH]; [apply Forall2_nil|].
    cbn [concat] in Hg. apply Forall_app in Hg as [H1 H2]. cbn [map]. apply Forall2_cons; [now apply good_hv_l|auto].
Qed.
(** with the digests that the Keccak circuit is meant to enforce, the published values are those computed natively for the inputs *)
Definition right_digest (msg : list Z) : list Z * Z * Z := (msg, digest_lo (keccak256 msg), digest_hi (keccak256 msg)).
Definition blocks_of (inputs : list (list Z)) : nat := list_sum (map (fun m => S (length m / 136)) inputs).
Local Lemma outs_length inputs : length (spec_outputs hash (CAPACITY p / 64) inputs) = blocks_of inputs.
Proof.
  unfold spec_outputs, blocks_of. induction inputs as [|m l IH]; [reflexivity|]. cbn [flat_map map]. rewrite app_length, app_length, repeat_length, IH. cbn [length list_sum fold_right]. unfold list_sum. lia.
Qed.
Lemma native_multi inputs capacity : 128 <= CAPACITY p -> blocks_of inputs <= capacity ->
  multi_inputs_to_circuit_outputs hash inputs capacity = Some (spec_outputs hash (CAPACITY p / 64) inputs ++ repeat dummy_output (capacity - blocks_of inputs)).
Proof.
  intros H128 Hcap. unfold multi_inputs_to_circuit_outputs. apply Nat.leb_le in H128 as E. rewrite E, andb_true_r.
  assert (EI : forall m, input_to_circuit_outputs hash m = Some (repeat dummy_output (length m / 136) ++ [spec_output hash (CAPACITY p / 64) m])).
  { intros m. unfold input_to_circuit_outputs, get_num_keccak_f. rewrite E, dummy_eq. replace (length m / 136 + 1 - 1) with (length m / 136) by lia. do 2 f_equal. f_equal.
    unfold native_output, spec_output. do 2 f_equal. apply (encode_native_spec (p:=p)). apply Hnw. }
  assert (E1 : forallb (fun o : option (list (output Fp)) => match o with Some _ => true | None => false end) (map (input_to_circuit_outputs hash) inputs) = true).
  { apply forallb_forall. intros o Ho. apply in_map_iff in Ho as (m & <- & _). now rewrite EI. }
  rewrite E1. assert (E2 : flat_map (fun o : option (list (output Fp)) => match o with Some l => l | None => [] end) (map (input_to_circuit_outputs hash) inputs) = spec_outputs hash (CAPACITY p / 64) inputs).
  { unfold spec_outputs. rewrite !flat_map_concat_map, map_map. f_equal. apply map_ext. intros m. rewrite EI. reflexivity. }
  rewrite E2, outs_length. apply Nat.leb_le in Hcap as E3. rewrite E3. f_equal. unfold resize. rewrite firstn_all2 by (rewrite outs_length; lia). rewrite outs_length, dummy_eq. reflexivity.
Qed.
Theorem C68_matches_native : forall (capacity : nat) (raw : bool) (lfs : list (loaded_f (p:=p))) (inputs : list (list Z)) (k : nat),
  128 <= CAPACITY p -> length lfs = capacity -> Forall (fun l => length (lf_words l) = 17) lfs ->
  sound lb (shard_instances (dummy_circuit_output hash) sp capacity raw lfs) (fun _ => True)
    (fun sg o => declares_all (map (lf_val (avs sg)) lfs) (map right_digest (inputs ++ repeat [] k)) ->
       native_instances hash capacity raw inputs = Some (map (map (avs sg)) o)).
Proof.
  intros capacity raw lfs inputs k H128 Hcap HF. eapply sound_weaken; [apply (C68_shard_sound capacity raw lfs Hcap HF)|auto|].
  cbv beta. intros sg o _ H HD. rewrite (H _ HD). clear H.
  assert (EC : capacity = blocks_of inputs + k).
  { destruct HD as (groups & EG & HD). assert (E : length (concat groups) = blocks_of (inputs ++ repeat [] k)).
    { clear EG. remember (inputs ++ repeat [] k) as ms. clear Heqms. revert groups HD. induction ms as [|m ms IH]; intros groups HD; inversion HD as [|g d groups' ds Hg HD' E1 E2]; subst; auto.
      cbn [concat]. rewrite app_length, (IH _ HD'). destruct Hg as [Hg _]. rewrite Hg. reflexivity. }
    rewrite <- EG, map_length in E. unfold blocks_of in *. rewrite map_app, list_sum_app in E. rewrite <- Hcap, E. f_equal.
    clear. induction k as [|k IH]; [reflexivity|]. cbn [repeat map length]. change (0 / 136) with 0. cbn [list_sum fold_right]. unfold list_sum in IH. lia. }
  unfold native_instances. rewrite (native_multi inputs capacity H128) by lia.
  assert (E : spec_outputs hash (CAPACITY p / 64) inputs ++ repeat dummy_output (capacity - blocks_of inputs) = declared_outputs (map right_digest (inputs ++ repeat [] k))).
  { replace (capacity - blocks_of inputs) with k by lia. unfold declared_outputs. rewrite map_app, flat_map_app. f_equal.
    - unfold spec_outputs. rewrite flat_map_map. apply flat_map_ext. intros m. unfold right_digest, spec_output, key. cbn [fst snd]. reflexivity.
    - clear. induction k as [|k IH]; cbn [repeat map flat_map]; [reflexivity|]. rewrite <- IH. unfold right_digest. cbn [fst snd length].
      change (0 / 136) with 0. cbn [repeat app]. f_equal. }
  rewrite E. reflexivity.
Qed.

(** ** C69: the native outputs *)
Theorem C69_native_outputs : forall (inputs : list (list Z)) (capacity : nat), 128 <= CAPACITY p ->
  multi_inputs_to_circuit_outputs hash inputs capacity =
  if blocks_of inputs <=? capacity then Some (spec_outputs hash (CAPACITY p / 64) inputs ++ repeat dummy_output (capacity - blocks_of inputs)) else None.
Proof.
  intros inputs capacity H128. destruct (Nat.leb_spec (blocks_of inputs) capacity) as [H|H]; [now apply native_multi|].
  pose proof (native_multi inputs (blocks_of inputs) H128 (le_n _)) as E. unfold multi_inputs_to_circuit_outputs in *.
  destruct (_ && _); auto. destruct (_ <=? blocks_of inputs) eqn:E1; [|discriminate].
  destruct (Nat.leb_spec (length (flat_map (fun o : option (list (output Fp)) => match o with Some l => l | None => [] end) (map (input_to_circuit_outputs hash) inputs))) capacity) as [E2|]; auto.
  injection E as E. apply (f_equal (@length _)) in E. unfold resize in E. rewrite !app_length, firstn_length, !repeat_length, outs_length, Nat.sub_diag in E.
  apply Nat.leb_le in E1. exfalso.
  assert (EL : length (flat_map (fun o : option (list (output Fp)) => match o with Some l => l | None => [] end) (map (input_to_circuit_outputs hash) inputs)) = blocks_of inputs).
  { clear - H128. apply Nat.leb_le in H128. unfold blocks_of. induction inputs as [|m l IH]; [reflexivity|]. cbn [map flat_map]. rewrite app_length, IH.
    unfold input_to_circuit_outputs, get_num_keccak_f. rewrite H128, app_length, repeat_length. cbn [length list_sum fold_right]. unfold list_sum. lia. }
  lia.
Qed.
Theorem C69_native_key : forall msg, encode_native_input hash msg = key msg.
Proof. intros msg. apply (encode_native_spec (p:=p)). apply Hnw. Qed.
(** different messages are hashed from different sequences of field elements *)
Theorem C69_key_input_injective : forall m1 m2, is_bytes m1 -> is_bytes m2 -> (Z.of_nat (length m1) < 2 ^ 64)%Z -> (Z.of_nat (length m2) < 2 ^ 64)%Z ->
  key_input p (CAPACITY p / 64) m1 = key_input p (CAPACITY p / 64) m2 -> m1 = m2.
Proof. apply (key_input_inj (p:=p)). apply Hnw. Qed.
End PropsKecComp.
Transparent keccak256 digest_lo digest_hi poseidon_hash.
Print Assumptions C67_encode_fix_len_sound.
Print Assumptions C67_encode_var_len_sound.
Print Assumptions C67_encode_complete.
Print Assumptions C68_shard_sound.
Print Assumptions C68_shard_complete.
Print Assumptions C68_matches_native.
Print Assumptions C69_native_outputs.
Print Assumptions C69_native_key.
Print Assumptions C69_key_input_injective.

(** ** C70: the parameters of a shard *)
(** the chosen number of rows per round is the largest with which [capacity] blocks of 25 rounds, and 18 more rounds, fit in the usable rows; with it the
    Keccak circuit has room for at least [capacity] blocks. The construction fails exactly when no number of rows per round will do. *)
Theorem C70_shard_params : forall k unusable capacity r, (0 <= capacity)%Z -> shard_rows_per_round k unusable capacity = Some r ->
  (0 < r /\ r * (25 * capacity + 18) <= 2 ^ k - unusable)%Z /\
  (forall r', r' * (25 * capacity + 18) <= 2 ^ k - unusable -> r' <= r)%Z /\
  exists c', get_keccak_capacity (2 ^ k - unusable) r = Some c' /\ (capacity <= c' /\ r * (25 * c' + 18) <= 2 ^ k - unusable)%Z.
Proof.
  intros k u c r Hc. unfold shard_rows_per_round, get_keccak_capacity. set (n := (2 ^ k - u)%Z). destruct (Z.ltb_spec u (2 ^ k)); [|discriminate].
  replace (c * 25 + 1 + 17)%Z with (25 * c + 18)%Z by lia. destruct (Z.ltb_spec 0 (n / (25 * c + 18))) as [H0|]; [|discriminate]. intros E. apply (f_equal (fun o => match o with Some x => x | None => 0%Z end)) in E. cbv beta iota in E. subst r.
  set (r := (n / (25 * c + 18))%Z) in *. pose proof (Z.mul_div_le n (25 * c + 18) ltac:(lia)) as HL. fold r in HL.
  split; [split; lia|]. split.
  - intros r' Hr. unfold r. apply Z.div_le_lower_bound; lia.
  - assert (HQ : (25 * c + 18 <= n / r)%Z) by (apply Z.div_le_lower_bound; lia).
    destruct (Z.ltb_spec (n / r - 1 - 17) 0); [lia|]. eexists. split; [reflexivity|].
    split; [apply Z.div_le_lower_bound; lia|]. pose proof (Z.mul_div_le (n / r - 1 - 17) 25 ltac:(lia)). pose proof (Z.mul_div_le n r ltac:(lia)). nia.
Qed.
Theorem C70_shard_params_fail : forall k unusable capacity, (0 <= capacity)%Z ->
  (shard_rows_per_round k unusable capacity = None <-> (2 ^ k - unusable < 25 * capacity + 18)%Z).
Proof.
  intros k u c Hc. unfold shard_rows_per_round. replace (c * 25 + 1 + 17)%Z with (25 * c + 18)%Z by lia.
  destruct (Z.ltb_spec u (2 ^ k)); [|split; auto; lia]. destruct (Z.ltb_spec 0 ((2 ^ k - u) / (25 * c + 18))) as [H0|H0].
  - split; [discriminate|]. intros H1. rewrite Z.div_small in H0 by lia. lia.
  - split; auto. intros _. destruct (Z.lt_ge_cases (2 ^ k - u) (25 * c + 18)); auto. assert (1 <= (2 ^ k - u) / (25 * c + 18))%Z by (apply Z.div_le_lower_bound; lia). lia.
Qed.
Print Assumptions C70_shard_params.
Print Assumptions C70_shard_params_fail.
Example C70_example : shard_rows_per_round 18 109 200 = Some 52%Z /\ get_keccak_capacity (2 ^ 18 - 109) 52 = Some 200%Z /\ shard_rows_per_round 10 109 40 = None.
Proof. split; [|split]; vm_compute; reflexivity. Qed.

(** ** C71: the ingestion format *)
Lemma entries_length msg h : length (ingestion_entries msg h) = S (length msg / 136).
Proof. unfold ingestion_entries. now rewrite map_length, seq_length. Qed.
Definition request_entries (r : list Z * option (list Z)) : list ingestion :=
  ingestion_entries (fst r) (match snd r with Some h => h | None => keccak256 (fst r) end).
(** the entries of all the requests in order, cut or completed with those of empty messages to the capacity; and the number needed *)
Theorem C71_ingestion : forall reqs capacity,
  format_requests_for_ingestion reqs capacity =
    (let es := flat_map request_entries reqs in firstn capacity es ++ repeat (ingestion_entry [] (keccak256 []) 0) (capacity - length es), blocks_of (map fst reqs)) /\
  length (fst (format_requests_for_ingestion reqs capacity)) = capacity.
Proof.
  intros reqs capacity. unfold format_requests_for_ingestion. cbv zeta. cbn [fst]. rewrite resize_length. split; [|reflexivity].
  assert (E : flat_map ingest_one reqs = flat_map request_entries reqs) by (apply flat_map_ext; intros [m h]; apply ingest_one_spec).
  rewrite E.
  assert (EN : length (flat_map request_entries reqs) = blocks_of (map fst reqs)); [|rewrite EN; unfold resize; rewrite EN; reflexivity].
  unfold blocks_of. rewrite map_map. clear E. induction reqs as [|r reqs IH]; [reflexivity|].
  cbn [flat_map map]. rewrite app_length, IH. unfold request_entries. rewrite entries_length. reflexivity.
Qed.
(** the entry of a block holds the words from which its part of the lookup key is made *)
Theorem C71_entry_words : forall msg h b,
  key_words msg b = Z.of_nat (ig_len (ingestion_entry msg h b)) :: map (fun t => le_bytes (firstn 8 (skipn (8 * t) (ig_bytes (ingestion_entry msg h b))))) (seq 0 17).
Proof.
  intros msg h b. unfold ingestion_entry, key_words. cbn [ig_len ig_bytes]. cbv zeta. f_equal; [now destruct (b =? 0)|].
  apply map_ext_in. intros t Ht. apply in_seq in Ht. set (c := firstn 136 (skipn (136 * b) msg)).
  assert (E := word_at_pad c (136 - length c) t). unfold word_at in E. rewrite E. unfold c. rewrite skipn_firstn_comm, firstn_firstn, skipn_plus.
  replace (Nat.min 8 (136 - 8 * t)) with 8 by lia. reflexivity.
Qed.
Print Assumptions C71_ingestion.
Print Assumptions C71_entry_words.
Example C71_example : map (fun e => (length (ig_bytes e), nth 0 (ig_bytes e) 0%Z, ig_len e, ig_final e, ig_lo e, ig_hi e))
    (fst (format_requests_for_ingestion [(repeat 5%Z 137, Some (repeat 1%Z 32)); ([7%Z], Some (repeat 2%Z 32))] 3)) =
  [(136, 5%Z, 137, false, 0%Z, 0%Z); (136, 5%Z, 0, true, 1334440654591915542993625911497130241%Z, 1334440654591915542993625911497130241%Z);
   (136, 7%Z, 1, true, 2668881309183831085987251822994260482%Z, 2668881309183831085987251822994260482%Z)] /\
  snd (format_requests_for_ingestion [(repeat 5%Z 137, Some (repeat 1%Z 32)); ([7%Z], Some (repeat 2%Z 32))] 3) = 3.
Proof. split; lazy; reflexivity. Qed.

(** ** examples: a prime of 65 bits, so one word per element (three in the scalar field of BN254), with a Poseidon of 2 full rounds and 1 partial round *)
Definition KP : positive := 18446744073709551629%positive.
Definition kf (z : Z) : F KP := of_Z KP z.
Definition kx_mds : list (list (F KP)) := map (map kf) [[2; 1; 3]; [1; 4; 1]; [5; 1; 7]]%Z.
Definition kx_inv : list (list (F KP)) := map (map (fun z => (kf z * Finv (kf 5))%F)) [[-27; 4; 11]; [2; 1; -1]; [19; -3; -7]]%Z.
Definition kx_cs : list (list (F KP)) := map (map kf) [[1; 2; 3]; [11; 12; 10]; [21; 22; 31]]%Z.
Definition kx_spec := opt_spec_new 3 2 2 1 kx_cs kx_mds kx_inv.
Definition kx_with {A} (f : opt_spec (p:=KP) -> M KP A) : M KP A := match kx_spec return M KP A with Some sp => f sp | None => panic end.
Definition kx_eq (l : list (AV KP)) (zs : list (F KP)) : bool := if list_eq_dec Z.eq_dec (map avz l) (map val zs) then true else false.
Definition kx_lw (l : list Z) : M KP (list (AV KP)) := mapM (fun z => load_witness (kf z)) l.
Example C67_hypotheses : 0 < CAPACITY R / 64 /\ 18 mod (CAPACITY R / 64) = 0 /\ 128 <= CAPACITY R /\ key_len_bounds (p:=R) 8 1000 /\ CAPACITY KP / 64 = 1 /\
  map (map val) (mat_mul 3 kx_mds kx_inv) = [[1; 0; 0]; [0; 1; 0]; [0; 0; 1]]%Z /\ match kx_spec with Some _ => true | None => false end = true.
Proof.
  assert (C : CAPACITY R = 253) by (vm_compute; reflexivity). rewrite C. split; [cbn; lia|]. split; [reflexivity|]. split; [lia|].
  split. { unfold key_len_bounds. cbv zeta. repeat split; vm_compute; discriminate || lia. }
  split; [vm_compute; reflexivity|]. split; vm_compute; reflexivity.
Qed.
Example C67_example : run_ok 8 (kx_with (fun sp => c <- hasher_consts 3 2 sp ;; b <- kx_lw [9; 8; 7; 6]%Z ;; n <- load_witness (kf 2) ;;
    y <- encode_var_len_bytes_vec 8 c sp b n ;; ret [y]))
  (fun o => kx_eq o [key KP 2 1 kx_cs kx_mds [9; 8]%Z]) = true.
Proof. vm_compute. reflexivity. Qed.
(** a block of the message [1; 2; 3], with digest (4, 5); the dummy output is replaced by (1, 1, 1), not used here *)
Definition kx_block (msg : list Z) (lo hi : Z) : M KP (loaded_f (p:=KP)) :=
  l <- load_witness (kf (Z.of_nat (length msg))) ;; w <- kx_lw (le_bytes msg :: repeat 0%Z 16) ;; f <- load_witness (kf 1) ;; x <- load_witness (kf lo) ;; y <- load_witness (kf hi) ;;
  ret (LoadedF l w f x y).
Example C68_example : run_ok 8 (kx_with (fun sp => a <- kx_block [1; 2; 3]%Z 4 5 ;; shard_instances (kf 1, kf 1, kf 1) sp 1 true [a]))
  (fun o => match o with [ks; los; his] => kx_eq ks [key KP 2 1 kx_cs kx_mds [1; 2; 3]%Z] && kx_eq los [kf 4] && kx_eq his [kf 5] | _ => false end) = true.
Proof. vm_compute. reflexivity. Qed.
Example C68_declares_example : declares_all KP [KLoaded (kf 3) (map kf (le_bytes [1; 2; 3]%Z :: repeat 0%Z 16)) (kf 1) (kf 4) (kf 5)] [([1; 2; 3]%Z, 4%Z, 5%Z)].
Proof.
  exists [[KLoaded (kf 3) (map kf (le_bytes [1; 2; 3]%Z :: repeat 0%Z 16)) (kf 1) (kf 4) (kf 5)]]. split; [reflexivity|]. apply Forall2_cons; [|apply Forall2_nil].
  split; [reflexivity|]. cbn [fst snd]. intros [|b] ld Hb; [|destruct b; discriminate]. injection Hb as <-. cbn [ld_left ld_words ld_final ld_lo ld_hi].
  split; [reflexivity|]. split; [reflexivity|]. split; [reflexivity|]. intros _. split; reflexivity.
Qed.
Example C69_example : map val (key_input R 3 [1; 2; 3]%Z) = [3 + 197121 * 2 ^ 64; 0; 0; 0; 0; 0]%Z /\ 
  map val (concat (pack_native_input (p:=R) [1; 2; 3]%Z)) = [3 + 197121 * 2 ^ 64; 0; 0; 0; 0; 0]%Z.
Proof. split; vm_compute; reflexivity. Qed.
