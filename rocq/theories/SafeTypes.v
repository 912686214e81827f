(** Model of the safe types of halo2-base: halo2-base/src/safe_types/mod.rs and halo2-base/src/safe_types/bytes.rs.
    [SafeBool], [SafeByte] and [SafeType] are new-types around cells (primitives.rs:10-59): the model returns the cells themselves,
    so the constructors [SafeBool(..)]/[SafeByte(..)] and the [unsafe_*] conversions are the identity. *)
From Coq Require Import ZArith Lia List Bool.
From Verif Require Import Field Context Utils Gate Range.
Import ListNotations.
Local Open Scope Z_scope.
Local Open Scope monad_scope.

Section SafeTypes.
Context {p : positive} (lb : nat).
Notation Fp := (F p).
Notation qc := (qcell p).
Notation M := (M p).
Notation AV := (AV p).

(** mod.rs:29 *)
Definition BITS_PER_BYTE : nat := 8.

(** mod.rs:178-181 *)
Definition assert_bool (input : AV) : M AV := assert_bit input ;;; ret input.
(** mod.rs:184-187 *)
Definition load_bool (input : bool) : M AV := x <- load_witness (of_Z p (if input then 1 else 0)) ;; assert_bool x.
(** mod.rs:196-199 *)
Definition assert_byte (input : AV) : M AV := range_check lb input BITS_PER_BYTE ;;; ret input.
(** mod.rs:202-205; [input] is a [u8], so [0 <= input < 256] *)
Definition load_byte (input : Z) : M AV := x <- load_witness (of_Z p input) ;; assert_byte x.

(** bytes.rs:31-37 [VarLenBytes::new], bytes.rs:88-96 [VarLenBytesVec::new]: both assertions look at the honest witness. The array
    version has [bytes.len() = MAX_LEN] by typing. *)
Definition var_len_new (bytes : list AV) (len : AV) (max_len : nat) : M (list AV * AV) :=
  v <- lift (av_value len) ;;
  assert_ (val v <=? val (of_Z p (Z.of_nat max_len))) ;;;
  assert_ (Nat.eqb (length bytes) max_len) ;;;
  ret (bytes, len).
(** bytes.rs:155-158 [FixLenBytesVec::new] *)
Definition fix_len_new (bytes : list AV) (len : nat) : M (list AV) := assert_ (Nat.eqb (length bytes) len) ;;; ret bytes.

(** mod.rs:265-273 [raw_to_var_len_bytes], mod.rs:284-297 [raw_to_var_len_bytes_vec]: the same code. [max_len as u64 + 1] is taken with
    overflow checks on (a panic), which only matters for [max_len = u64::MAX]. *)
Definition raw_to_var_len_bytes_vec (inputs : list AV) (len : AV) (max_len : nat) : M (list AV * AV) :=
  assert_ (Z.of_nat max_len + 1 <? 2 ^ 64) ;;;
  check_less_than_safe lb len (Z.of_nat max_len + 1) ;;;
  bytes <- mapM assert_byte inputs ;;
  var_len_new bytes len max_len.
(** mod.rs:303-309 [raw_to_fix_len_bytes], mod.rs:315-325 [raw_to_fix_len_bytes_vec] *)
Definition raw_to_fix_len_bytes_vec (inputs : list AV) (len : nat) : M (list AV) :=
  bytes <- mapM assert_byte inputs ;; fix_len_new bytes len.

(** mod.rs:55-56 [VALUE_LENGTH]; mod.rs:59-61 [bits_per_ele] *)
Definition VALUE_LENGTH (bytes_per_ele total_bits : nat) : nat :=
  ((total_bits + bytes_per_ele * BITS_PER_BYTE - 1) / (bytes_per_ele * BITS_PER_BYTE))%nat.
Definition bits_per_ele (bytes_per_ele total_bits : nat) : nat := Nat.min total_bits (bytes_per_ele * BITS_PER_BYTE).
(** mod.rs:64-67 [SafeType::new] *)
Definition safe_type_new (bytes_per_ele total_bits : nat) (raw : list AV) : M (list AV) :=
  assert_ (Nat.eqb (length raw) (VALUE_LENGTH bytes_per_ele total_bits)) ;;; ret raw.

(** mod.rs:328-340 [add_bytes_constraints] *)
Fixpoint add_bytes_constraints (inputs : list AV) (bits_left : nat) : M unit :=
  match inputs with
  | [] => ret tt
  | input :: rest =>
      let num_bit := Nat.min bits_left BITS_PER_BYTE in
      range_check lb input num_bit ;;; add_bytes_constraints rest (bits_left - num_bit)
  end.

(** [slice::chunks(n)] *)
Definition chunks {A} (n : nat) (l : list A) : list (list A) :=
  map (fun i => firstn n (skipn (i * n) l)) (seq 0 (ceil_div (length l) n)).

(** mod.rs:152-154 [byte_base]; [pow_of_two[i * 8]] panics out of range *)
Definition byte_base (bytes_per_ele : nat) : M (list Fp) :=
  mapM (fun i => lift (nth_error (pow_of_two_table (p:=p)) (i * BITS_PER_BYTE))) (seq 0 bytes_per_ele).
(** mod.rs:135-166 [raw_bytes_to]; [BYTES_PER_ELE = 0] is a compile-time division by zero in [VALUE_LENGTH] *)
Definition raw_bytes_to (bytes_per_ele total_bits : nat) (inputs : list AV) : M (list AV) :=
  assert_ (Nat.ltb 0 bytes_per_ele) ;;;
  let element_bits := bits_per_ele bytes_per_ele total_bits in
  let bits := total_bits in
  assert_ (Nat.eqb (length inputs * BITS_PER_BYTE) (Nat.max bits BITS_PER_BYTE)) ;;;
  add_bytes_constraints inputs bits ;;;
  if (Nat.eqb bits 1 || Nat.eqb element_bits BITS_PER_BYTE)%bool then safe_type_new bytes_per_ele total_bits inputs
  else
    base <- byte_base bytes_per_ele ;;
    value <- mapM (fun chunk : list AV => inner_product (map Existing chunk) (map Witness (firstn (length chunk) base)))
               (chunks bytes_per_ele inputs) ;;
    safe_type_new bytes_per_ele total_bits value.

(** bytes.rs:199-225 [left_pad_var_array_to_fixed]. The two [debug_assert!]s are not part of a release build and are hypotheses of the theorems. *)
Definition shifted (k : nat) (padded : list AV) (out_len : nat) : M (list qc) :=
  mapM (fun j => if Nat.leb k j then x <- lift (nth_error padded (j - k)) ;; ret (Existing x) else ret (Constant F0)) (seq 0 out_len).
Definition pad_step (out_len : nat) (padded : list AV) (ib : nat * AV) : M (list AV) :=
  sh <- shifted (2 ^ fst ib) padded out_len ;;
  mapM (fun ns : AV * qc => select (snd ns) (Existing (fst ns)) (Existing (snd ib))) (combine padded sh).
Definition left_pad_var_array_to_fixed (arr : list AV) (len : AV) (out_len : nat) : M (list AV) :=
  x0 <- lift (nth_error arr 0) ;;
  let padded := firstn out_len arr ++ repeat x0 (out_len - length arr) in
  shift <- sub (Constant (of_Z p (Z.of_nat out_len))) (Existing len) ;;
  shift_bits <- num_to_bits shift (bit_length (Z.of_nat out_len)) ;;
  foldM (pad_step out_len) (combine (seq 0 (length shift_bits)) shift_bits) padded.

(** bytes.rs:227-246 [ensure_0_padding] *)
Definition ensure_0_padding (bytes : list AV) (len : AV) : M (list AV) :=
  let max_len := length bytes in
  idx <- dec (Existing len) ;;
  len_indicator <- idx_to_indicator (Existing idx) max_len ;;
  mask <- partial_sums (map Existing (rev len_indicator)) ;;
  mapM (fun bm : AV * AV => mul (Existing (fst bm)) (Existing (snd bm))) (combine bytes (rev mask)).

(** bytes.rs:53-62 / 104-111 [left_pad_to_fixed]; 65-68 / 114-117 [VarLenBytes::ensure_0_padding] *)
Definition left_pad_to_fixed (bytes : list AV) (len : AV) : M (list AV) :=
  padded <- left_pad_var_array_to_fixed bytes len (length bytes) ;; fix_len_new padded (length bytes).
Definition var_len_ensure_0_padding (bytes : list AV) (len : AV) : M (list AV * AV) :=
  b <- ensure_0_padding bytes len ;; var_len_new b len (length bytes).
End SafeTypes.
