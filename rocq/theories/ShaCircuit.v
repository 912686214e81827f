(** Model of the SHA-256 circuit, hashes/zkevm/src/sha256/vanilla (param.rs, columns.rs, util.rs, constraints.rs and the
    fixed columns of witness.rs) and of the expression helpers it uses (hashes/zkevm/src/util).
    The gates are modelled as halo2 [Expression] trees, with halo2's evaluation (queries wrap around the rows) and degree. *)
From Coq Require Import ZArith List Bool.
From Verif Require Import Field.
Import ListNotations.
Local Open Scope Z_scope.

(** columns.rs:12-28, 49-73: advice columns word_w, word_a, word_e, is_paddings, hash_table.{io, length, is_final} *)
Inductive acol := CW (k : nat) | CA (k : nat) | CE (k : nat) | CPad (k : nat) | CIo | CLen | CFinal.
(** columns.rs:12-28, 49-73: fixed columns *)
Inductive fcol := QEnable | QFirst | QExtend | QStart | QCompression | QEnd | QInput | QInputLast | QSqueeze | RoundCst | HA | HE.

Section Expressions.
Context {p : positive}.
Notation Fp := (F p).

(** halo2 [Expression] (the selector, instance and challenge variants do not occur in these gates) *)
Inductive expr := Const (c : Fp) | Fixed (c : fcol) (rot : Z) | Advice (c : acol) (rot : Z)
  | Negated (e : expr) | Sum (a b : expr) | Product (a b : expr) | Scaled (e : expr) (c : Fp).
(** halo2 [Expression::degree] *)
Fixpoint degree (e : expr) : nat :=
  match e with
  | Const _ => 0
  | Fixed _ _ | Advice _ _ => 1
  | Negated e | Scaled e _ => degree e
  | Sum a b => Nat.max (degree a) (degree b)
  | Product a b => degree a + degree b
  end.
(** an assigned table of [rows] rows; a query at rotation [rot] from row [r] reads row [(r + rot) mod rows] *)
Record table := mkTable { rows : Z; fixc : fcol -> Z -> Fp; advc : acol -> Z -> Fp }.
Fixpoint eval (t : table) (r : Z) (e : expr) : Fp :=
  match e with
  | Const c => c
  | Fixed c rot => fixc t c ((r + rot) mod rows t)
  | Advice c rot => advc t c ((r + rot) mod rows t)
  | Negated e => (- eval t r e)%F
  | Sum a b => (eval t r a + eval t r b)%F
  | Product a b => (eval t r a * eval t r b)%F
  | Scaled e c => (eval t r e * c)%F
  end.
(** a table satisfies a gate when its polynomials vanish on every row *)
Definition satisfies (t : table) (g : list expr) : Prop :=
  forall r, 0 <= r < rows t -> Forall (fun e => eval t r e = F0) g.

(** halo2 [Expression - Expression] *)
Definition sub_expr (a b : expr) : expr := Sum a (Negated b).
(** util/expression.rs:159-166 [u64::expr] *)
Definition cst (z : Z) : expr := Const (of_Z p z).
(** util/expression.rs:8-10 [sum::expr] *)
Definition sum_expr (l : list expr) : expr := fold_left Sum l (cst 0).
(** util/expression.rs:25-27 [and::expr] *)
Definition and_expr (l : list expr) : expr := fold_left Product l (cst 1).
(** util/expression.rs:59-61 [not::expr] *)
Definition not_expr (b : expr) : expr := sub_expr (cst 1) b.
(** util/expression.rs:75-77 [xor::expr] *)
Definition xor_expr (a b : expr) : expr := sub_expr (Sum a b) (Product (Product (cst 2) a) b).
(** util/expression.rs:92-98 [select::expr] *)
Definition select_expr (s t f : expr) : expr := Sum (Product s t) (Product (sub_expr (cst 1) s) f).
(** util/expression.rs:125-133 [from_bytes::expr]; util.rs:25-33 [decode::expr] is the same loop with base 2 on the reversed bits;
    util/mod.rs:13-28 [to_bytes::expr] the same with base 2 on eight bits *)
Fixpoint lin_loop (base : Z) (l : list expr) (value : expr) (multiplier : Fp) : expr :=
  match l with
  | [] => value
  | x :: l => lin_loop base l (Sum value (Scaled x multiplier)) (multiplier * of_Z p base)%F
  end.
Definition from_bytes_expr (bytes : list expr) : expr := lin_loop 256 bytes (cst 0) F1.
(** sha256/vanilla/util.rs:25-33 *)
Definition decode_expr (bits : list expr) : expr := lin_loop 2 (rev bits) (cst 0) F1.
(** sha256/vanilla/util.rs:48-52: [rotate_right]; panics (slice) when [count] exceeds the length, which it never does here *)
Definition rotate_expr {A} (bits : list A) (count : nat) : list A :=
  skipn (length bits - count) bits ++ firstn (length bits - count) bits.
(** sha256/vanilla/util.rs:65-69 *)
Definition shift_expr (bits : list expr) (count : nat) : list expr := repeat (cst 0) count ++ firstn (32 - count) bits.
(** util/mod.rs:13-28 *)
Fixpoint to_bytes_loop (fuel : nat) (bits : list expr) : list expr :=
  match fuel with
  | O => []
  | S fuel => lin_loop 2 (firstn 8 bits) (cst 0) F1 :: to_bytes_loop fuel (skipn 8 bits)
  end.
Definition to_bytes_expr (bits : list expr) : list expr := to_bytes_loop (length bits / 8) bits.
(** sha256/vanilla/util.rs:82-87 *)
Definition to_be_bytes_expr (bits : list expr) : list expr := rev (to_bytes_expr (rev bits)).
Definition map2 {A B C} (f : A -> B -> C) (a : list A) (b : list B) : list C := map (fun xy => f (fst xy) (snd xy)) (combine a b).
(** constraints.rs:100-107 *)
Definition xor_bits (a b : list expr) : list expr := map2 xor_expr a b.
(** constraints.rs:109-120 *)
Definition select_bits (c t f : list expr) : list expr := map2 (fun c tf => select_expr c (fst tf) (snd tf)) c (combine t f).

(** util/constraint_builder.rs:32-43: the constraint expressions; 45-64: a conditional constraint *)
Definition require_equal (a b : expr) : expr := sub_expr a b.
Definition require_boolean (v : expr) : expr := Product v (sub_expr (cst 1) v).
Definition condition (c : expr) (l : list expr) : list expr := map (Product c) l.
(** util/constraint_builder.rs:78-88; the degree check of [validate_degree] is [config] below *)
Definition gate (selector : expr) (l : list expr) : list expr := map (Product selector) l.

(** ** The gates of constraints.rs *)
Definition qf (c : fcol) : expr := Fixed c 0.
Definition bits_at (c : nat -> acol) (skip n : nat) (rot : Z) : list expr := map (fun i => Advice (c (i + skip)%nat) rot) (seq 0 n).
(** constraints.rs:68-98 ([NUM_BITS_PER_WORD] = 32, [_W] = 34, [_EXT] = 35) *)
Definition w_ext := bits_at CW 0 34 0.
Definition w_ := bits_at CW 2 32 0.
Definition w_2 := bits_at CW 2 32 (-2).
Definition w_7 := bits_at CW 2 32 (-7).
Definition w_15 := bits_at CW 2 32 (-15).
Definition w_16 := bits_at CW 2 32 (-16).
Definition a_ := bits_at CA 3 32 (-1).
Definition b_ := bits_at CA 3 32 (-2).
Definition c_ := bits_at CA 3 32 (-3).
Definition d_ := bits_at CA 3 32 (-4).
Definition e_ := bits_at CE 3 32 (-1).
Definition f_ := bits_at CE 3 32 (-2).
Definition g_ := bits_at CE 3 32 (-3).
Definition h_ := bits_at CE 3 32 (-4).
Definition d_68 := bits_at CA 3 32 (-68).
Definition h_68 := bits_at CE 3 32 (-68).
Definition new_a_ext := bits_at CA 0 35 0.
Definition new_e_ext := bits_at CE 0 35 0.
Definition new_a := bits_at CA 3 32 0.
Definition new_e := bits_at CE 3 32 0.

(** constraints.rs:122-134 "input checks" *)
Definition g_input_checks : list expr :=
  gate (qf QEnable) (map require_boolean w_ext ++ map require_boolean new_a_ext ++ map require_boolean new_e_ext).
(** constraints.rs:136-148 "w extend" *)
Definition g_w_extend : list expr :=
  let s0 := xor_bits (rotate_expr w_15 7) (xor_bits (rotate_expr w_15 18) (shift_expr w_15 3)) in
  let s1 := xor_bits (rotate_expr w_2 17) (xor_bits (rotate_expr w_2 19) (shift_expr w_2 10)) in
  let new_w := Sum (Sum (Sum (decode_expr w_16) (decode_expr s0)) (decode_expr w_7)) (decode_expr s1) in
  gate (qf QExtend) [require_equal new_w (decode_expr w_ext)].
(** constraints.rs:150-166 "compression" *)
Definition g_compression : list expr :=
  let s1 := xor_bits (rotate_expr e_ 6) (xor_bits (rotate_expr e_ 11) (rotate_expr e_ 25)) in
  let ch := select_bits e_ f_ g_ in
  let temp1 := Sum (Sum (Sum (Sum (decode_expr h_) (decode_expr s1)) (decode_expr ch)) (qf RoundCst)) (decode_expr w_) in
  let s0 := xor_bits (rotate_expr a_ 2) (xor_bits (rotate_expr a_ 13) (rotate_expr a_ 22)) in
  let maj := select_bits (xor_bits b_ c_) a_ b_ in
  let temp2 := Sum (decode_expr s0) (decode_expr maj) in
  gate (qf QCompression) [require_equal (decode_expr new_a_ext) (Sum temp1 temp2);
                          require_equal (decode_expr new_e_ext) (Sum (decode_expr d_) temp1)].
(** constraints.rs:168-184 "start" *)
Definition g_start : list expr :=
  let is_final := Advice CFinal 0 in
  gate (qf QStart) [require_equal (decode_expr new_a_ext) (select_expr is_final (qf HA) (decode_expr d_));
                    require_equal (decode_expr new_e_ext) (select_expr is_final (qf HE) (decode_expr h_))].
(** constraints.rs:186-199 "end" *)
Definition g_end : list expr :=
  gate (qf QEnd) [require_equal (decode_expr new_a_ext) (Sum (decode_expr d_) (decode_expr d_68));
                  require_equal (decode_expr new_e_ext) (Sum (decode_expr h_) (decode_expr h_68))].
(** constraints.rs:202-235 "is final"; -(4 + 64 - 16) - 2 = -54 *)
Definition g_is_final : list expr :=
  let is_padding := Advice (CPad 3) (-54) in
  let is_final_prev := Advice CFinal (-1) in
  let is_final := Advice CFinal 0 in
  gate (cst 1) (condition (qf QFirst) [require_equal is_final (cst 1)] ++
                condition (qf QSqueeze) [require_equal is_final is_padding] ++
                condition (sub_expr (qf QStart) (qf QFirst)) [require_equal is_final is_final_prev]).
(** constraints.rs:243: bytes of the current word, most significant first *)
Definition input_bytes : list expr := to_be_bytes_expr w_.
(** constraints.rs:246-317 "padding" *)
Definition g_padding : list expr :=
  let prev_is_padding := Advice (CPad 3) (-1) in
  let q_input := qf QInput in
  let q_input_last := qf QInputLast in
  let is_final_padding_row := Advice (CPad 3) (-2) in
  let is_paddings := map (fun k => Advice (CPad k) 0) (seq 0 4) in
  let step idx :=
    let is_padding_prev := match idx with O => prev_is_padding | S i => nth i is_paddings (cst 0) end in
    let is_padding := nth idx is_paddings (cst 0) in
    let is_first_padding := sub_expr is_padding is_padding_prev in
    let byte := nth idx input_bytes (cst 0) in
    condition q_input [require_boolean is_first_padding] ++
    condition (and_expr [sub_expr q_input q_input_last; is_padding]) [require_equal byte (Product is_first_padding (cst 128))] ++
    condition (and_expr [q_input_last; is_padding; not_expr is_final_padding_row])
              [require_equal byte (Product is_first_padding (cst 128))] in
  gate (cst 1) (flat_map (fun x => condition (qf QEnable) [require_boolean x]) is_paddings ++
                flat_map step (seq 0 4) ++
                condition (and_expr [q_input_last; is_final_padding_row])
                          [require_equal (decode_expr w_) (Product (Advice CLen 0) (cst 8))]).
(** constraints.rs:321-339 "word_value" *)
Definition g_word_value : list expr :=
  let masked := map2 (fun byte k => Product byte (not_expr (Advice (CPad k) 0))) input_bytes (seq 0 4) in
  gate (qf QInput) [require_equal (from_bytes_expr masked) (Advice CIo 0)].
(** constraints.rs:341-356 "length" *)
Definition g_length : list expr :=
  gate (qf QInput) [require_equal (Advice CLen 0)
    (Sum (Advice CLen (-1)) (sum_expr (map (fun k => not_expr (Advice (CPad k) 0)) (seq 0 4))))].
(** constraints.rs:359-393 "cross block data consistency"; -(4 + 64 - 16) = -52 *)
Definition g_cross : list expr :=
  let add column :=
    condition (qf QSqueeze) [require_equal (Advice column 0) (Advice column (-52))] ++
    condition (sub_expr (qf QStart) (qf QFirst))
              [require_equal (Advice column 0) (Product (Advice column (-1)) (not_expr (Advice CFinal 0)))] ++
    condition (qf QFirst) [require_equal (Advice column 0) (cst 0)] in
  gate (cst 1) (add CLen ++ add (CPad 3)).
(** constraints.rs:396-415 "squeeze"; word.rs:295-305 [to_word]: two little-endian halves of sixteen bytes *)
Definition g_squeeze : list expr :=
  let hash_parts := [new_a; a_; b_; c_; new_e; e_; f_; g_] in
  let hash_bytes_le := rev (flat_map to_be_bytes_expr hash_parts) in
  gate (qf QSqueeze) (condition (Advice CFinal 0)
    [sub_expr (from_bytes_expr (firstn 16 hash_bytes_le)) (Advice CIo 0);
     sub_expr (from_bytes_expr (skipn 16 hash_bytes_le)) (Advice CIo (-1))]).
(** constraints.rs:419-494 "unused is zero" *)
Definition g_unused : list expr :=
  let q_end_not_squeeze x := sub_expr (Sum x (qf QEnd)) (qf QSqueeze) in
  gate (qf QEnable)
    (condition (not_expr (qf QExtend)) (firstn 2 w_ext) ++
     condition (Sum (qf QStart) (qf QEnd)) (skipn 2 w_ext) ++
     condition (q_end_not_squeeze (qf QCompression)) [Advice CFinal 0] ++
     condition (not_expr (qf QInput)) (map (fun k => Advice (CPad k) 0) (seq 0 3)) ++
     condition (q_end_not_squeeze (qf QExtend)) [Advice (CPad 3) 0] ++
     condition (not_expr (Sum (Sum (qf QInput) (Fixed QSqueeze 1)) (qf QSqueeze))) [Advice CIo 0] ++
     condition (q_end_not_squeeze (qf QExtend)) [Advice CLen 0]).
(** constraints.rs:29-514 [Sha256CircuitConfig::new]: the gates ("Query state bits", constraints.rs:68-98, has the zero polynomial) *)
Definition sha_gates : list expr :=
  [cst 0] ++ g_input_checks ++ g_w_extend ++ g_compression ++ g_start ++ g_end ++ g_is_final ++ g_padding ++ g_word_value ++
  g_length ++ g_cross ++ g_squeeze ++ g_unused.
(** ... which panics if a constraint has degree above [MAX_DEGREE] = 4 (constraint_builder.rs:66-76) *)
Definition sha_config : option (list expr) :=
  if forallb (fun e => Nat.leb (degree e) 4) sha_gates then Some sha_gates else None.
End Expressions.
Arguments expr : clear implicits. Arguments table : clear implicits.

(** param.rs:23-32 *)
Definition ROUND_CST : list Z :=
  [0x428a2f98; 0x71374491; 0xb5c0fbcf; 0xe9b5dba5; 0x3956c25b; 0x59f111f1; 0x923f82a4; 0xab1c5ed5;
   0xd807aa98; 0x12835b01; 0x243185be; 0x550c7dc3; 0x72be5d74; 0x80deb1fe; 0x9bdc06a7; 0xc19bf174;
   0xe49b69c1; 0xefbe4786; 0x0fc19dc6; 0x240ca1cc; 0x2de92c6f; 0x4a7484aa; 0x5cb0a9dc; 0x76f988da;
   0x983e5152; 0xa831c66d; 0xb00327c8; 0xbf597fc7; 0xc6e00bf3; 0xd5a79147; 0x06ca6351; 0x14292967;
   0x27b70a85; 0x2e1b2138; 0x4d2c6dfc; 0x53380d13; 0x650a7354; 0x766a0abb; 0x81c2c92e; 0x92722c85;
   0xa2bfe8a1; 0xa81a664b; 0xc24b8b70; 0xc76c51a3; 0xd192e819; 0xd6990624; 0xf40e3585; 0x106aa070;
   0x19a4c116; 0x1e376c08; 0x2748774c; 0x34b0bcb5; 0x391c0cb3; 0x4ed8aa4a; 0x5b9cca4f; 0x682e6ff3;
   0x748f82ee; 0x78a5636f; 0x84c87814; 0x8cc70208; 0x90befffa; 0xa4506ceb; 0xbef9a3f7; 0xc67178f2].
(** param.rs:34-36 *)
Definition H_INIT : list Z := [0x6a09e667; 0xbb67ae85; 0x3c6ef372; 0xa54ff53a; 0x510e527f; 0x9b05688c; 0x1f83d9ab; 0x5be0cd19].
(** param.rs:19 [SHA256_NUM_ROWS] *)
Definition SHA_ROWS : Z := 72.
Definition b2z (b : bool) : Z := if b then 1 else 0.
Definition within (lo hi x : Z) : bool := (lo <=? x) && (x <? hi).
(** witness.rs:141-183: the fixed cells of the row at [offset] (start offset 0) *)
Definition fixed_value (c : fcol) (offset : Z) : Z :=
  let round := offset mod SHA_ROWS in
  match c with
  | QEnable => 1
  | QFirst => b2z (offset =? 0)
  | QExtend => b2z (within 20 68 round)
  | QStart => b2z (round <? 4)
  | QCompression => b2z (within 4 68 round)
  | QEnd => b2z (68 <=? round)
  | QInput => b2z (within 4 20 round)
  | QInputLast => b2z (round =? 19)
  | QSqueeze => b2z (round =? 71)
  | RoundCst => if within 4 68 round then nth (Z.to_nat (round - 4)) ROUND_CST 0 else 0
  | HA => if round <? 4 then nth (Z.to_nat (3 - round)) H_INIT 0 else 0
  | HE => if round <? 4 then nth (Z.to_nat (7 - round)) H_INIT 0 else 0
  end.
(** witness.rs:93-129, 132-183: the fixed columns after [multi_sha256] has assigned [nb] blocks from row 0; other rows keep halo2's zero *)
Definition fixed_assigned {p} (t : table p) (nb : Z) : Prop :=
  forall c r, 0 <= r < rows t -> fixc t c r = of_Z p (if r <? SHA_ROWS * nb then fixed_value c r else 0).

(** witness.rs:56-73 [AssignedSha256Block] and 105-128: the cells handed to the caller for block [j] *)
Record sha_out (p : positive) := mkShaOut { o_final : F p; o_lo : F p; o_hi : F p; o_words : list (F p); o_len : F p }.
Arguments mkShaOut {p}. Arguments o_final {p}. Arguments o_lo {p}. Arguments o_hi {p}. Arguments o_words {p}. Arguments o_len {p}.
Definition assigned_block {p} (t : table p) (j : Z) : sha_out p :=
  let row i := SHA_ROWS * j + i in
  mkShaOut (advc t CFinal (row 71)) (advc t CIo (row 71)) (advc t CIo (row 70))
           (map (fun q => advc t CIo (row (4 + Z.of_nat q))) (seq 0 16)) (advc t CLen (row 19)).
