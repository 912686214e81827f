(** Independent specification of Poseidon (https://eprint.iacr.org/2019/458.pdf, Section 2.2/2.3 and 4.2):
    the textbook permutation with its round constants and MDS matrix, and the sponge. *)
From Coq Require Import ZArith List Bool Arith.
From Verif Require Import Field Det.
Import ListNotations.
Local Open Scope F_scope.

Section PSpec.
Context {p : positive}.
Notation vec := (list (F p)).
Notation mat := (list (list (F p))).

Definition p5 (x : F p) : F p := x * (x * (x * (x * x))).
(** matrix times column vector *)
Definition mat_vec (m : mat) (v : vec) : vec :=
  map (fun row => fold_right Fadd 0 (map (fun '(a, b) => a * b) (combine row v))) m.
Definition add_vec (a b : vec) : vec := map (fun '(x, y) => x + y) (combine a b).
(** one round: AddRoundConstants, SubWords (all words / the first word), MixLayer *)
Definition full_round (m : mat) (s c : vec) : vec := mat_vec m (map p5 (add_vec s c)).
Definition partial_round (m : mat) (s c : vec) : vec :=
  mat_vec m (match add_vec s c with [] => [] | x :: r => p5 x :: r end).
(** the permutation: rf/2 full rounds, rp partial rounds, rf/2 full rounds *)
Definition poseidon_perm (rf rp : nat) (m : mat) (cs : list vec) (s : vec) : vec :=
  let h := (rf / 2)%nat in
  let s1 := fold_left (full_round m) (firstn h cs) s in
  let s2 := fold_left (partial_round m) (firstn rp (skipn h cs)) s1 in
  fold_left (full_round m) (skipn (h + rp) cs) s2.

(** the sponge of Section 4.2 with rate T-1 and capacity 1 (capacity word first): the message is padded
    with a single 1 and then zeros to a multiple of the rate, blocks are added to the rate part and the state is
    permuted after each; the output is the first rate word. *)
Fixpoint blocks (fuel rate : nat) (msg : vec) : list vec :=
  match fuel with
  | O => []
  | S f => match msg with [] => [] | _ => firstn rate msg :: blocks f rate (skipn rate msg) end
  end.
Definition pad_message (rate : nat) (msg : vec) : vec :=
  let z := (rate - 1 - length msg mod rate)%nat in msg ++ 1 :: repeat 0 z.
Definition absorb_block (perm : vec -> vec) (s blk : vec) : vec := perm (add_vec s (0 :: blk)).
Definition sponge_absorb (rate : nat) (perm : vec -> vec) (s msg : vec) : vec :=
  let m := pad_message rate msg in
  fold_left (absorb_block perm) (blocks (length m) rate m) s.
Definition sponge_init (T : nat) : vec := of_Z p (2 ^ 64) :: repeat 0 (T - 1).
Definition poseidon_hash (T : nat) (perm : vec -> vec) (msg : vec) : F p :=
  nth 1 (sponge_absorb (T - 1) perm (sponge_init T) msg) 0.

(** Rows of compact input (words, is_final, number of valid words): a logical input is the concatenation of the
    valid words of consecutive rows up to and including a final one; row by row, the hash of what has been read of the
    current logical input. *)
Fixpoint compact_hashes (hash : vec -> F p) (buf : vec) (rows : list (vec * bool * nat)) : list (F p) :=
  match rows with
  | [] => []
  | (xs, fin, n) :: r =>
      hash (buf ++ firstn n xs) :: compact_hashes hash (if fin then [] else buf ++ firstn n xs) r
  end.
(** Rows of chunk input (words, is_final): the hash of the logical input on final rows, zero elsewhere. *)
Fixpoint chunk_hashes (hash : vec -> F p) (buf : vec) (rows : list (vec * bool)) : list (F p) :=
  match rows with
  | [] => []
  | (xs, fin) :: r =>
      (if fin then hash (buf ++ xs) else 0) :: chunk_hashes hash (if fin then [] else buf ++ xs) r
  end.
End PSpec.
