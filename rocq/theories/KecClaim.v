(** What the loaded cells of the Keccak circuit say: the vocabulary of the properties of the Keccak circuit. *)
From Coq Require Import ZArith List Bool.
From Verif Require Import Field KecCircuit KecSpec.
Import ListNotations.
Local Open Scope Z_scope.

Definition is_bytes (l : list Z) : Prop := Forall (fun b => 0 <= b < 256) l.
(** The cells of consecutive blocks say: "the message is [msg] and its digest, as two 128-bit integers, is [lo], [hi]".
    The message has [length msg / 136 + 1] blocks. The block [b] holds the number of bytes of [msg] not before this block, 17 little-endian words
    of [msg] (zero after its end), and a flag, 1 on the last block only; the digest is in the last block. *)
Definition kdeclares {p} (lds : list (kloaded p)) (msg : list Z) (lo hi : Z) : Prop :=
  length lds = S (length msg / 136) /\
  forall b ld, nth_error lds b = Some ld ->
    ld_left ld = of_Z p (Z.of_nat (length msg) - 136 * Z.of_nat b) /\
    ld_words ld = map (fun t => of_Z p (le_bytes (firstn 8 (skipn (136 * b + 8 * t) msg)))) (seq 0 17) /\
    ld_final ld = of_Z p (if Nat.eqb b (length msg / 136) then 1 else 0) /\
    (b = (length msg / 136)%nat -> ld_lo ld = of_Z p lo /\ ld_hi ld = of_Z p hi).
(** the cells loaded from a table with [nb] blocks *)
Definition kloaded_blocks {p} (rr : nat) (t : ktable p) (nb : nat) : list (kloaded p) :=
  map (fun b => kloaded_block (Z.of_nat rr) t (Z.of_nat b)) (seq 0 nb).
(** A table that a verifier accepts for the parameters [k], [rows_per_round] with [nb] blocks assigned: the fixed columns are those of the circuit,
    the [nb] blocks are in usable rows, and every gate and lookup of the configuration holds. *)
Definition kaccepted {p} (k rr : nat) (t : ktable p) (usable : Z) (nb : nat) : Prop :=
  usable <= krows t /\ Z.of_nat rr * (1 + 25 * Z.of_nat nb) <= usable /\
  kfixed_assigned (Z.of_nat rr) t (Z.of_nat nb) /\
  exists gates lookups, kec_config k rr = Some (gates, lookups) /\ ksat_gates t gates /\ ksat_lookups k usable t lookups.
(** Soundness of the Keccak circuit with parameters [k], [rows_per_round]: in an accepted table, if blocks [b0, ..] (that start the table, or that
    follow a final block) declare a message of bytes, then the digest they declare is the Keccak-256 digest of that message. *)
Definition kec_sound (p : positive) (k rr : nat) : Prop :=
  forall (t : ktable p) usable nb b0 n msg lo hi,
    kaccepted k rr t usable nb -> is_bytes msg -> 0 <= lo < 2 ^ 128 -> 0 <= hi < 2 ^ 128 -> (b0 + n <= nb)%nat ->
    (b0 = O \/ ld_final (nth (b0 - 1) (kloaded_blocks rr t nb) (KLoaded F0 [] F0 F0 F0)) = of_Z p 1) ->
    kdeclares (firstn n (skipn b0 (kloaded_blocks rr t nb))) msg lo hi ->
    lo = digest_lo (keccak256 msg) /\ hi = digest_hi (keccak256 msg).
