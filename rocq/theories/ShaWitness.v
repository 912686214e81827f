(** Model of the witness generation of the SHA-256 circuit, hashes/zkevm/src/sha256/vanilla/witness.rs and util.rs.
    u64/usize values are integers: with inputs shorter than 2^29 bytes every intermediate value is below 2^36. *)
From Coq Require Import ZArith List Bool.
From Verif Require Import Field Spec ShaSpec ShaCircuit ShaBits.
Import ListNotations.
Local Open Scope Z_scope.

(** util.rs:91-99 [into_be_bits] *)
Definition into_be_bits (bytes : list Z) : list bool := flat_map (fun b => map (fun idx => Z.testbit b (7 - Z.of_nat idx)) (seq 0 8)) bytes.
(** util.rs:35-41 [decode::value] is [bz]; util.rs:54-56 [rotate::value] is [u32::rotate_right], the function [rotr] on the low
    32 bits; util.rs:71-73 [shift::value] *)
Definition low32 (x : Z) : Z := Z.land x 0xFFFFFFFF.
Definition rotate_value (x n : Z) : Z := rotr n (low32 x).
Definition shift_value (x n : Z) : Z := Z.shiftr (low32 x) n.
(** util.rs:9-12, 16-18 *)
Definition get_num_sha2_blocks (byte_length : Z) : Z := (byte_length + 8) / 64 + 1.
Definition get_sha2_capacity (num_rows : Z) : Z := num_rows / SHA_ROWS.

(** witness.rs:19-33 [VirtualShaRow] *)
Record vrow := VRow { v_w : list bool; v_a : list bool; v_e : list bool; v_pads : list bool; v_final : bool;
                      v_len : Z; v_word : Z; v_limb : Z }.
(** witness.rs:255-260 [word_to_bits] *)
Definition word_to_bits (value : Z) (num_bits : nat) : list bool := skipn (64 - num_bits) (into_be_bits (be_bytes 8 value)).
(** witness.rs:247-280 [add_row] *)
Definition add_row (w a e : Z) (is_final : bool) (length : Z) (is_paddings : list bool) (hash_limb : Z) (is_input : bool) : vrow :=
  let word_value :=
    if is_input then le_val (map (fun bp : Z * bool => if snd bp then 0 else fst bp) (combine (be_bytes 4 (low32 w)) is_paddings)) else 0 in
  VRow (word_to_bits w 34) (word_to_bits a 35) (word_to_bits e 35) is_paddings is_final length word_value hash_limb.

(** witness.rs:229-231: the loop that appends zero bits ([fuel] 512 suffices) *)
Fixpoint pad_zeros (fuel : nat) (bits : list bool) : list bool :=
  match fuel with
  | O => bits
  | S fuel => if Nat.eqb ((length bits + 64) mod 512) 0 then bits else pad_zeros fuel (bits ++ [false])
  end.
(** witness.rs:222-233 *)
Definition padded_bits (input_bytes : list Z) : list bool :=
  let bits := into_be_bits input_bytes in
  let length_in_bits := into_be_bits (be_bytes 8 (Z.of_nat (length bits))) in
  pad_zeros 512 (bits ++ [true]) ++ length_in_bits.

(** the loop state of witness.rs:298-364: the working variables, [ws], [length] and [in_padding] *)
Record wst := WSt { s_h : hstate; s_ws : list Z; s_len : Z; s_pad : bool }.
(** witness.rs:300-313: the padding flags of one word *)
Fixpoint pad_flags (n : nat) (total len : Z) : list bool * Z :=
  match n with
  | O => ([], len)
  | S n => if len =? total then let '(l, len) := pad_flags n total len in (true :: l, len)
           else let '(l, len) := pad_flags n total (len + 1) in (false :: l, len)
  end.
(** witness.rs:299-364: one round *)
Definition round_row (total : Z) (chunk : list bool) (round : nat) (round_cst : Z) (st : wst) : vrow * wst :=
  let input := Nat.ltb round 16 in
  let '(is_paddings, length1) := if input then pad_flags 4 total (s_len st) else ([false; false; false; false], s_len st) in
  let in_padding := if input then last is_paddings false else s_pad st in
  let get_w offset := low32 (nth (length (s_ws st) - offset) (s_ws st) 0) in
  let w_ext :=
    if input then bz (firstn 32 (skipn (32 * round) chunk))
    else let s0 := Z.lxor (Z.lxor (rotate_value (get_w 15%nat) 7) (rotate_value (get_w 15%nat) 18)) (shift_value (get_w 15%nat) 3) in
         let s1 := Z.lxor (Z.lxor (rotate_value (get_w 2%nat) 17) (rotate_value (get_w 2%nat) 19)) (shift_value (get_w 2%nat) 10) in
         get_w 16%nat + s0 + get_w 7%nat + s1 in
  let w := low32 w_ext in
  let '(HS a b c d e f g h) := s_h st in
  let s1 := Z.lxor (Z.lxor (rotate_value e 6) (rotate_value e 11)) (rotate_value e 25) in
  let ch := Z.lxor (Z.land e f) (Z.ldiff g e) in
  let temp1 := h + s1 + ch + round_cst + w in
  let s0 := Z.lxor (Z.lxor (rotate_value a 2) (rotate_value a 13)) (rotate_value a 22) in
  let maj := Z.lxor (Z.lxor (Z.land a b) (Z.land a c)) (Z.land b c) in
  let temp2 := s0 + maj in
  let e' := d + temp1 in
  let a' := temp1 + temp2 in
  (add_row w_ext a' e' false (if input then length1 else 0) is_paddings 0 input,
   WSt (HS (low32 a') a b c (low32 e') e f g) (s_ws st ++ [w]) length1 in_padding).
Fixpoint rounds (total : Z) (chunk : list bool) (round : nat) (csts : list Z) (st : wst) : list vrow * wst :=
  match csts with
  | [] => ([], st)
  | c :: csts => let '(r, st) := round_row total chunk round c st in
                 let '(rs, st) := rounds total chunk (S round) csts st in (r :: rs, st)
  end.
(** witness.rs:246-410: one block; returns its rows, the new [hs], [length] and [in_padding] *)
Definition block_rows (total : Z) (first is_final_block : bool) (chunk : list bool) (hs : hstate) (len : Z) (in_padding : bool)
  : list vrow * (hstate * Z * bool) :=
  let start a e := add_row 0 a e first len [false; false; false; in_padding] 0 false in
  let start_rows := [start (hd hs) (hh hs); start (hc hs) (hg hs); start (hb hs) (hf hs); start (ha hs) (he hs)] in
  let '(round_rows, st) := rounds total chunk 0 ROUND_CST (WSt hs [] len in_padding) in
  let v := s_h st in
  let '(HS h0 h1 h2 h3 h4 h5 h6 h7) :=
    HS (ha hs + ha v) (hb hs + hb v) (hc hs + hc v) (hd hs + hd v) (he hs + he v) (hf hs + hf v) (hg hs + hg v) (hh hs + hh v) in
  let hash_bytes := if is_final_block then flat_map (fun h => be_bytes 4 (low32 h)) [h0; h1; h2; h3; h4; h5; h6; h7] else repeat 0 32 in
  let hash_lo := be_val (skipn 16 hash_bytes) in
  let hash_hi := be_val (firstn 16 hash_bytes) in
  let end_row a e limb := add_row 0 a e false 0 [false; false; false; false] limb false in
  let end_rows := [end_row h3 h7 0; end_row h2 h6 0; end_row h1 h5 hash_hi;
                   add_row 0 h0 h4 is_final_block (s_len st) [false; false; false; s_pad st] hash_lo false] in
  (start_rows ++ round_rows ++ end_rows,
   (HS (low32 h0) (low32 h1) (low32 h2) (low32 h3) (low32 h4) (low32 h5) (low32 h6) (low32 h7), s_len st, s_pad st)).
(** witness.rs:243-410: the loop over the blocks *)
Fixpoint blocks_rows (total : Z) (first : bool) (chunks : list (list bool)) (hs : hstate) (len : Z) (in_padding : bool) : list vrow :=
  match chunks with
  | [] => []
  | chunk :: chunks =>
      let '(rs, (hs, len, in_padding)) :=
        block_rows total first (match chunks with [] => true | _ => false end) chunk hs len in_padding in
      rs ++ blocks_rows total false chunks hs len in_padding
  end.
(** witness.rs:221-413 [generate_witnesses_sha256]: the rows it appends *)
Definition generate_witnesses_sha256 (input_bytes : list Z) : list vrow :=
  let bits := padded_bits input_bytes in
  blocks_rows (Z.of_nat (length input_bytes)) true (pieces (length bits) 512 bits)
              (HS (nth 0 H_INIT 0) (nth 1 H_INIT 0) (nth 2 H_INIT 0) (nth 3 H_INIT 0)
                  (nth 4 H_INIT 0) (nth 5 H_INIT 0) (nth 6 H_INIT 0) (nth 7 H_INIT 0)) 0 false.
(** witness.rs:439-441: the loop that adds empty inputs; every iteration adds one block, [fuel] is the capacity *)
Fixpoint fill (fuel : nat) (target : nat) (rows : list vrow) : list vrow :=
  match fuel with
  | O => rows
  | S fuel => if Nat.ltb (length rows) target then fill fuel target (rows ++ generate_witnesses_sha256 []) else rows
  end.
(** witness.rs:421-448 [generate_witnesses_multi_sha256] ([None]: the panic "SHA-256 Circuit Over Capacity") *)
Definition generate_witnesses_multi_sha256 (inputs : list (list Z)) (capacity : option nat) : option (list vrow) :=
  let rows := flat_map generate_witnesses_sha256 inputs in
  match capacity with
  | None => Some rows
  | Some capacity =>
      let rows := fill capacity (72 * capacity) rows in
      if Nat.ltb (72 * capacity) (length rows) then None else Some rows
  end.

(** witness.rs:185-214 [set_row]: the advice cells of one row *)
Definition cell {p} (v : vrow) (c : acol) (offset : Z) : F p :=
  let round := offset mod SHA_ROWS in
  match c with
  | CW k => fbool (nth k (v_w v) false)
  | CA k => fbool (nth k (v_a v) false)
  | CE k => fbool (nth k (v_e v) false)
  | CPad k => fbool (nth k (v_pads v) false)
  | CIo => if within 4 20 round then of_Z p (v_word v) else if 70 <=? round then of_Z p (v_limb v) else F0
  | CLen => of_Z p (v_len v)
  | CFinal => fbool (v_final v)
  end.
Definition no_row : vrow := VRow [] [] [] [] false 0 0 0.
(** witness.rs:86-129: the table of [n] rows after [multi_sha256]; [junk] is whatever the other advice cells hold *)
Definition assigned_table {p} (n : Z) (junk : acol -> Z -> F p) (vs : list vrow) : table p :=
  mkTable n (fun c r => of_Z p (if r <? Z.of_nat (length vs) then fixed_value c r else 0))
            (fun c r => if r <? Z.of_nat (length vs) then cell (nth (Z.to_nat r) vs no_row) c r else junk c r).
