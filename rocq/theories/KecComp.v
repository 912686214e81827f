(** Model of the Keccak component: hashes/zkevm/src/keccak/component/encode.rs, ingestion.rs, output.rs, circuit/shard.rs.
    The native Poseidon sponge of snark-verifier ([create_native_poseidon_sponge], component/mod.rs:51-57) is a dependency outside the repository; it is
    modelled by the argument [hash], the hash of the concatenation of the updates. *)
From Coq Require Import ZArith List Bool Arith.
From Verif Require Import Field Spec Context Utils Gate Range SafeTypes PoseidonMds PoseidonOpt PoseidonChip KecSpec KeySpec KecCircuit.
Import ListNotations.
Local Open Scope nat_scope.
Local Open Scope monad_scope.

Section KecComp.
Context {p : positive}.
Notation Fp := (F p).
Notation AV := (AV p).
Notation M := (M p).

(** encode.rs:155-157 [num_word_per_witness]; 164-168 [num_witness_per_keccak_f]; 173-177 [num_poseidon_absorb_per_keccak_f] *)
Definition num_word_per_witness : nat := CAPACITY p / 64.
Definition num_witness_per_keccak_f : nat := 17 / num_word_per_witness + 1.
Definition num_poseidon_absorb_per_keccak_f : nat := (num_witness_per_keccak_f - 1) / 2 + 1.
(** vanilla/keccak_packed_multi.rs [get_num_keccak_f]: [byte_length / NUM_BYTES_TO_ABSORB + 1] *)
Definition get_num_keccak_f (len : nat) : nat := len / 136 + 1.

(** encode.rs:179-201 [get_words_to_witness_multipliers], [get_bytes_to_words_multipliers]: the loop of both *)
Fixpoint mult_loop (m base : Fp) (n : nat) : list Fp := match n with O => [] | S n => (m * base)%F :: mult_loop (m * base)%F base n end.
Definition words_to_witness_multipliers : list Fp := F1 :: mult_loop F1 (of_Z p (2 ^ 64)) (num_word_per_witness - 1).
Definition bytes_to_words_multipliers : list Fp := F1 :: mult_loop F1 (of_Z p (2 ^ 8)) (8 - 1).

(** [iter().enumerate()] *)
Definition enumerate {A} (l : list A) : list (nat * A) := combine (seq 0 (length l)) l.
(** copying a slice of at most [n] elements to the start of an array of [n] elements [x] *)
Definition buffer {A} (n : nat) (x : A) (l : list A) : list A := l ++ repeat x (n - length l).

(** encode.rs:45-88 [pack_native_input]. [chunks(0)] panics: the model is meant for [0 < num_word_per_witness]. *)
Definition pack_native_input (bytes : list Z) : list (list Fp) :=
  let len := length bytes in
  let words := map (fun c => le_bytes (buffer 16 0%Z c)) (chunks 8 bytes) ++ (if len mod 136 =? 0 then repeat 0%Z 17 else []) in
  let words_per_keccak_f := map (fun ic => (if fst ic =? 0 then Z.of_nat len else 0%Z) :: buffer 17 0%Z (snd ic)) (enumerate (chunks 17 words)) in
  map (fun ws => map (fun c => fold_left (fun acc wm => (acc + of_Z p (fst wm) * snd wm)%F) (combine c words_to_witness_multipliers) F0)
                     (chunks num_word_per_witness ws)) words_per_keccak_f.
(** encode.rs:28-43 [encode_native_input]; [hash] is the native Poseidon sponge (update with each piece, then squeeze) *)
Definition encode_native_input (hash : list Fp -> Fp) (bytes : list Z) : Fp :=
  hash (flat_map (fun ws => flat_map (buffer 2 F0) (chunks 2 ws)) (pack_native_input bytes)).

(** encode.rs:203-261 [format_input] *)
Definition format_input (bytes : list AV) (len : AV) : M (list (list (list AV))) :=
  zero <- load_zero ;;
  words <- mapM (fun c => inner_product (map Existing c) (map Constant (firstn (length c) bytes_to_words_multipliers))) (chunks 8 (bytes ++ [zero])) ;;
  let words_per_f := map (fun ic => (if fst ic =? 0 then len else zero) :: buffer 17 zero (snd ic)) (enumerate (chunks 17 words)) in
  witnesses_per_f <- mapM (fun ws => mapM (fun c => inner_product (map Existing c) (map Constant words_to_witness_multipliers))
                                          (chunks num_word_per_witness ws)) words_per_f ;;
  ret (map (fun ws => map (buffer 2 zero) (chunks 2 ws)) witnesses_per_f).

(** encode.rs:127-144 [encode_fix_len_bytes_vec] *)
Definition encode_fix_len_bytes_vec (c : list AV * AV) (spec : opt_spec (p:=p)) (bytes : list AV) : M AV :=
  len_witness <- load_constant (of_Z p (Z.of_nat (length bytes))) ;;
  chunk_input_per_f <- format_input bytes len_witness ;;
  hash_fix_len_array 3 2 c (flat_map (@concat AV) chunk_input_per_f) spec.
(** encode.rs:90-125 [encode_var_len_bytes_vec]; the VarLenBytesVec is [bytes] and [len] *)
Definition encode_var_len_bytes_vec (lb : nat) (c : list AV * AV) (spec : opt_spec (p:=p)) (bytes : list AV) (len : AV) : M AV :=
  let max_len := length bytes in
  d <- div_mod lb (Existing len) 136 (bit_length (Z.of_nat max_len)) ;;
  f_indicator <- idx_to_indicator (Existing (fst d)) (get_num_keccak_f max_len) ;;
  b <- var_len_ensure_0_padding bytes len ;;
  chunk_input_per_f <- format_input (fst b) (snd b) ;;
  compact_outputs <- hash_compact_chunk_inputs 3 2 c (combine chunk_input_per_f f_indicator) spec ;;
  select_by_indicator (map Existing compact_outputs) f_indicator.

(** circuit/shard.rs:187-203 [LoadedKeccakF] *)
Record loaded_f := LoadedF { lf_left : AV; lf_words : list AV; lf_final : AV; lf_lo : AV; lf_hi : AV }.
(** [Vec::resize] *)
Definition resize {A} (n : nat) (x : A) (l : list A) : list A := firstn n l ++ repeat x (n - length l).
(** circuit/shard.rs:407-462 [pack_inputs_from_keccak_fs]; the state of the loop is [last_is_final] and the rows made so far. [chunks_exact(2)] drops no
    element because the data has been resized to an even length. *)
Definition pack_step (zero : AV) (st : AV * list (list (list AV) * AV)) (lf : loaded_f) : M (AV * list (list (list AV) * AV)) :=
  input_bytes_len <- mul (Existing (lf_left lf)) (Existing (fst st)) ;;
  data <- mapM (fun ws => inner_product (map Existing (resize num_word_per_witness zero ws)) (map Constant words_to_witness_multipliers))
               (chunks num_word_per_witness (input_bytes_len :: lf_words lf)) ;;
  ret (lf_final lf, snd st ++ [(chunks 2 (resize (2 * num_poseidon_absorb_per_keccak_f) zero data), lf_final lf)]).
Definition pack_inputs_from_keccak_fs (lfs : list loaded_f) : M (list (list (list AV) * AV)) :=
  one_const <- load_constant F1 ;;
  zero_const <- load_zero ;;
  r <- foldM (pack_step zero_const) lfs (one_const, []) ;; ret (snd r).
(** circuit/shard.rs:464-475 [encode_inputs_from_keccak_fs] *)
Definition encode_inputs_from_keccak_fs (c : list AV * AV) (spec : opt_spec (p:=p)) (lfs : list loaded_f) : M (list AV) :=
  rows <- pack_inputs_from_keccak_fs lfs ;; hash_compact_chunk_inputs 3 2 c rows spec.

(** output.rs:11-19 [KeccakCircuitOutput], with cells or field elements *)
Definition output (E : Type) : Type := (E * E * E)%type.
(** output.rs:75-84 [dummy_circuit_output_impl] (and 56-73, its cache). The digest is computed by the [sha3] crate, here [keccak256]. *)
Definition native_output (hash : list Fp -> Fp) (bytes : list Z) : output Fp :=
  (encode_native_input hash bytes, of_Z p (digest_lo (keccak256 bytes)), of_Z p (digest_hi (keccak256 bytes))).
Definition dummy_circuit_output (hash : list Fp -> Fp) : output Fp := native_output hash [].
(** output.rs:35-51 [input_to_circuit_outputs] (the assertion on the capacity of the field is line 36) *)
Definition input_to_circuit_outputs (hash : list Fp -> Fp) (bytes : list Z) : option (list (output Fp)) :=
  if 128 <=? CAPACITY p then
    Some (repeat (dummy_circuit_output hash) (get_num_keccak_f (length bytes) - 1) ++ [native_output hash bytes])
  else None.
(** output.rs:21-33 [multi_inputs_to_circuit_outputs] *)
Definition multi_inputs_to_circuit_outputs (hash : list Fp -> Fp) (inputs : list (list Z)) (capacity : nat) : option (list (output Fp)) :=
  let outs := map (input_to_circuit_outputs hash) inputs in
  if forallb (fun o => match o with Some _ => true | None => false end) outs && (128 <=? CAPACITY p) then
    let outputs := flat_map (fun o => match o with Some l => l | None => [] end) outs in
    if length outputs <=? capacity then Some (resize capacity (dummy_circuit_output hash) outputs) else None
  else None.
Definition flat_output {E} (o : output E) : list E := [fst (fst o); snd (fst o); snd o].
(** output.rs:86-97 [calculate_circuit_outputs_commit] *)
Definition calculate_circuit_outputs_commit (hash : list Fp -> Fp) (outputs : list (output Fp)) : Fp := hash (flat_map flat_output outputs).

(** circuit/shard.rs:325-360 [generate_circuit_final_outputs]; [zip_eq] panics when the lengths differ. [dummy] is [dummy_circuit_output()]. *)
Definition generate_circuit_final_outputs (dummy : output Fp) (keys : list AV) (lfs : list loaded_f) : M (list (output AV)) :=
  dk <- load_constant (fst (fst dummy)) ;; dl <- load_constant (snd (fst dummy)) ;; dh <- load_constant (snd dummy) ;;
  assert_ (length keys =? length lfs) ;;;
  mapM (fun kl : AV * loaded_f =>
    let lf := snd kl in
    key <- select (Existing (fst kl)) (Existing dk) (Existing (lf_final lf)) ;;
    lo <- select (Existing (lf_lo lf)) (Existing dl) (Existing (lf_final lf)) ;;
    hi <- select (Existing (lf_hi lf)) (Existing dh) (Existing (lf_final lf)) ;;
    ret (key, lo, hi)) (combine keys lfs).
(** circuit/shard.rs:301-323 [generate_base_circuit_witnesses] and 362-401 [publish_outputs]: the columns of instances that are published *)
Definition shard_instances (dummy : output Fp) (spec : opt_spec (p:=p)) (capacity : nat) (publish_raw_outputs : bool) (lfs : list loaded_f) : M (list (list AV)) :=
  c <- hasher_consts 3 2 spec ;;
  keys <- encode_inputs_from_keccak_fs c spec lfs ;;
  outputs <- generate_circuit_final_outputs dummy keys lfs ;;
  assert_ (length outputs =? capacity) ;;;
  if publish_raw_outputs then ret [map (fun o => fst (fst o)) outputs; map (fun o => snd (fst o)) outputs; map snd outputs]
  else commit <- hash_fix_len_array 3 2 c (flat_map flat_output outputs) spec ;; ret [[commit]].
(** circuit/shard.rs:530-542 [CircuitExt::instances] *)
Definition native_instances (hash : list Fp -> Fp) (capacity : nat) (publish_raw_outputs : bool) (inputs : list (list Z)) : option (list (list Fp)) :=
  match multi_inputs_to_circuit_outputs hash inputs capacity with
  | None => None
  | Some outs => Some (if publish_raw_outputs then [map (fun o => fst (fst o)) outs; map (fun o => snd (fst o)) outs; map snd outs]
                       else [[calculate_circuit_outputs_commit hash outs]])
  end.
End KecComp.

(** circuit/shard.rs:90-122 [KeccakComponentShardCircuitParams::new]: the number of rows per round, [None] when an assertion fails *)
Definition shard_rows_per_round (k num_unusable_row capacity : Z) : option Z :=
  (if num_unusable_row <? 2 ^ k then
     let rows_per_round := (2 ^ k - num_unusable_row) / (capacity * 25 + 1 + 17) in
     if 0 <? rows_per_round then Some rows_per_round else None
   else None)%Z.
(** vanilla/keccak_packed_multi.rs:33-37 [get_keccak_capacity]: the number of keccak_f that fit in [num_rows] rows, [None] when the [usize] subtraction underflows *)
Definition get_keccak_capacity (num_rows rows_per_round : Z) : option Z :=
  (if num_rows / rows_per_round - 1 - 17 <? 0 then None else Some ((num_rows / rows_per_round - 1 - 17) / 25))%Z.
(** circuit/shard.rs:221-239 [KeccakComponentShardCircuit::new]: the assertion on the inputs *)
Definition shard_new_ok (inputs : list (list Z)) (capacity : nat) : bool :=
  list_sum (map (fun i => get_num_keccak_f (length i)) inputs) <=? capacity.

(** ingestion.rs:7-36 [KeccakIngestionFormat] *)
Record ingestion := Ingestion { ig_bytes : list Z; ig_len : nat; ig_final : bool; ig_lo : Z; ig_hi : Z }.
Definition ingestion_new (bytes : list Z) (len : nat) (is_final : bool) (hash : list Z) : ingestion :=
  Ingestion bytes len is_final (digest_lo hash) (digest_hi hash).
Definition ingestion_default : ingestion := ingestion_new (repeat 0%Z 136) 0 true (keccak256 []).
(** ingestion.rs:60-80, the loop body: the chunks of an input. The hash is given or computed. The closing [last_mut] rewrites the last entry pushed. *)
Definition set_last (hash : list Z) (l : list ingestion) : list ingestion :=
  match rev l with
  | [] => []
  | x :: r => rev r ++ [Ingestion (ig_bytes x) (ig_len x) true (digest_lo hash) (digest_hi hash)]
  end.
Definition ingest_one (req : list Z * option (list Z)) : list ingestion :=
  let input := fst req in
  let hash := match snd req with Some h => h | None => keccak256 input end in
  let len := length input in
  let pushed := map (fun ic => ingestion_new (buffer 136 0%Z (snd ic)) (if fst ic =? 0 then len else 0) false (repeat 0%Z 32)) (enumerate (chunks 136 input)) in
  set_last hash (pushed ++ (if len mod 136 =? 0 then [ingestion_default] else [])).
(** ingestion.rs:49-87 [format_requests_for_ingestion] *)
Definition format_requests_for_ingestion (reqs : list (list Z * option (list Z))) (capacity : nat) : list ingestion * nat :=
  let ingestions := flat_map ingest_one reqs in (resize capacity ingestion_default ingestions, length ingestions).
