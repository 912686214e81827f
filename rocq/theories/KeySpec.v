(** Specification of the lookup keys of the Keccak component circuit (component/encode.rs, described in its comments). A message of bytes is cut into
    keccak_f blocks of 136 bytes, with an extra block when the length is a multiple of 136. A block is 18 words of 64 bits: the length of the
    message in the first block and zero in the others, then 17 little-endian words of the message, zero after its end. Every [nw] words make a field element
    (little endian); a block is completed with a zero to an even number of elements; the key is the Poseidon hash of the elements of all the blocks. *)
From Coq Require Import ZArith List Bool Arith.
From Verif Require Import Field Spec KecSpec.
Import ListNotations.
Local Open Scope nat_scope.

(** elements per block: [18 / nw] rounded up *)
Definition block_elements (nw : nat) : nat := (18 + nw - 1) / nw.
Definition key_words (msg : list Z) (b : nat) : list Z :=
  (if b =? 0 then Z.of_nat (length msg) else 0%Z) :: map (fun t => le_bytes (firstn 8 (skipn (136 * b + 8 * t) msg))) (seq 0 17).
Definition key_elements (p : positive) (nw : nat) (ws : list Z) : list (F p) :=
  map (fun j => of_Z p (undigits 64 (firstn nw (skipn (nw * j) ws)))) (seq 0 (block_elements nw)).
Definition key_block (p : positive) (nw : nat) (msg : list Z) (b : nat) : list (F p) :=
  key_elements p nw (key_words msg b) ++ (if Nat.odd (block_elements nw) then [F0] else []).
Definition key_input (p : positive) (nw : nat) (msg : list Z) : list (F p) :=
  flat_map (key_block p nw msg) (seq 0 (S (length msg / 136))).

(** The outputs of the circuit for a list of messages: a message of [n] blocks makes [n] outputs (key, low half and high half of the digest),
    those of the empty message [n - 1] times and then its own. *)
Definition spec_output {p} (hash : list (F p) -> F p) (nw : nat) (msg : list Z) : F p * F p * F p :=
  (hash (key_input p nw msg), of_Z p (digest_lo (keccak256 msg)), of_Z p (digest_hi (keccak256 msg))).
Definition spec_outputs {p} (hash : list (F p) -> F p) (nw : nat) (msgs : list (list Z)) : list (F p * F p * F p) :=
  flat_map (fun m => repeat (spec_output hash nw []) (length m / 136) ++ [spec_output hash nw m]) msgs.
