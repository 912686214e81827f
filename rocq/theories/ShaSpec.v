(** FIPS 180-4 SHA-256, on lists of byte values and 32-bit words as integers. Nothing here mentions the model of the code. *)
From Coq Require Import ZArith List.
Import ListNotations.
Local Open Scope Z_scope.

Definition rotr (n x : Z) : Z := Z.lor (Z.shiftr x n) (Z.shiftl x (32 - n) mod 2 ^ 32).
Definition Ch (x y z : Z) : Z := Z.lxor (Z.land x y) (Z.ldiff z x).
Definition Maj (x y z : Z) : Z := Z.lxor (Z.lxor (Z.land x y) (Z.land x z)) (Z.land y z).
Definition Sigma0 x := Z.lxor (Z.lxor (rotr 2 x) (rotr 13 x)) (rotr 22 x).
Definition Sigma1 x := Z.lxor (Z.lxor (rotr 6 x) (rotr 11 x)) (rotr 25 x).
Definition sigma0 x := Z.lxor (Z.lxor (rotr 7 x) (rotr 18 x)) (Z.shiftr x 3).
Definition sigma1 x := Z.lxor (Z.lxor (rotr 17 x) (rotr 19 x)) (Z.shiftr x 10).

(** the round constants and the initial hash value *)
Definition sha_K : list Z :=
  [0x428a2f98; 0x71374491; 0xb5c0fbcf; 0xe9b5dba5; 0x3956c25b; 0x59f111f1; 0x923f82a4; 0xab1c5ed5;
   0xd807aa98; 0x12835b01; 0x243185be; 0x550c7dc3; 0x72be5d74; 0x80deb1fe; 0x9bdc06a7; 0xc19bf174;
   0xe49b69c1; 0xefbe4786; 0x0fc19dc6; 0x240ca1cc; 0x2de92c6f; 0x4a7484aa; 0x5cb0a9dc; 0x76f988da;
   0x983e5152; 0xa831c66d; 0xb00327c8; 0xbf597fc7; 0xc6e00bf3; 0xd5a79147; 0x06ca6351; 0x14292967;
   0x27b70a85; 0x2e1b2138; 0x4d2c6dfc; 0x53380d13; 0x650a7354; 0x766a0abb; 0x81c2c92e; 0x92722c85;
   0xa2bfe8a1; 0xa81a664b; 0xc24b8b70; 0xc76c51a3; 0xd192e819; 0xd6990624; 0xf40e3585; 0x106aa070;
   0x19a4c116; 0x1e376c08; 0x2748774c; 0x34b0bcb5; 0x391c0cb3; 0x4ed8aa4a; 0x5b9cca4f; 0x682e6ff3;
   0x748f82ee; 0x78a5636f; 0x84c87814; 0x8cc70208; 0x90befffa; 0xa4506ceb; 0xbef9a3f7; 0xc67178f2].

(** the eight working variables *)
Record hstate := HS { ha : Z; hb : Z; hc : Z; hd : Z; he : Z; hf : Z; hg : Z; hh : Z }.
Definition sha_H0 : hstate :=
  HS 0x6a09e667 0xbb67ae85 0x3c6ef372 0xa54ff53a 0x510e527f 0x9b05688c 0x1f83d9ab 0x5be0cd19.

(** section 6.2.2, step 1: the message schedule, extended by [n] words *)
Fixpoint schedule (n : nat) (w : list Z) : list Z :=
  match n with
  | O => w
  | S n => let t := length w in
           schedule n (w ++ [(sigma1 (nth (t - 2) w 0) + nth (t - 7) w 0 + sigma0 (nth (t - 15) w 0) + nth (t - 16) w 0) mod 2 ^ 32])
  end.
(** step 3: one round with constant [k] and word [w] *)
Definition sha_round (s : hstate) (kw : Z * Z) : hstate :=
  let '(k, w) := kw in
  let t1 := hh s + Sigma1 (he s) + Ch (he s) (hf s) (hg s) + k + w in
  let t2 := Sigma0 (ha s) + Maj (ha s) (hb s) (hc s) in
  HS ((t1 + t2) mod 2 ^ 32) (ha s) (hb s) (hc s) ((hd s + t1) mod 2 ^ 32) (he s) (hf s) (hg s).
Definition hs_add (s t : hstate) : hstate :=
  HS ((ha s + ha t) mod 2 ^ 32) ((hb s + hb t) mod 2 ^ 32) ((hc s + hc t) mod 2 ^ 32) ((hd s + hd t) mod 2 ^ 32)
     ((he s + he t) mod 2 ^ 32) ((hf s + hf t) mod 2 ^ 32) ((hg s + hg t) mod 2 ^ 32) ((hh s + hh t) mod 2 ^ 32).
(** one block of sixteen words *)
Definition sha_block (s : hstate) (m : list Z) : hstate :=
  hs_add s (fold_left sha_round (combine sha_K (schedule 48 m)) s).

(** big-endian and little-endian values of byte strings *)
Definition be_val (l : list Z) : Z := fold_left (fun acc x => 256 * acc + x) l 0.
Fixpoint le_val (l : list Z) : Z := match l with [] => 0 | x :: l => x + 256 * le_val l end.
(** the [n] big-endian bytes of [v] *)
Fixpoint be_bytes (n : nat) (v : Z) : list Z :=
  match n with O => [] | S n => be_bytes n (v / 256) ++ [v mod 256] end.
(** consecutive pieces of [n] elements *)
Fixpoint pieces {A} (fuel n : nat) (l : list A) : list (list A) :=
  match fuel, l with
  | O, _ | _, [] => []
  | S fuel, _ => firstn n l :: pieces fuel n (skipn n l)
  end.
(** section 5.1.1: padding a message of whole bytes to a multiple of 64 bytes *)
Definition sha_pad (msg : list Z) : list Z :=
  let l := Z.of_nat (length msg) in
  msg ++ [128] ++ repeat 0 (Z.to_nat ((55 - l) mod 64)) ++ be_bytes 8 (8 * l).
Definition sha_words (block : list Z) : list Z := map be_val (pieces 16 4 block).
Definition sha_blocks (padded : list Z) : list (list Z) := map sha_words (pieces (length padded) 64 padded).
Definition hs_bytes (s : hstate) : list Z := flat_map (be_bytes 4) [ha s; hb s; hc s; hd s; he s; hf s; hg s; hh s].
(** the digest (32 bytes) of a byte string *)
Definition sha256 (msg : list Z) : list Z := hs_bytes (fold_left sha_block (sha_blocks (sha_pad msg)) sha_H0).

(** the two published test vectors for one block and for two blocks *)
Example sha256_abc : be_val (sha256 [97; 98; 99]) = 0xba7816bf8f01cfea414140de5dae2223b00361a396177a9cb410ff61f20015ad.
Proof. vm_compute. reflexivity. Qed.
Example sha256_empty : be_val (sha256 []) = 0xe3b0c44298fc1c149afbf4c8996fb92427ae41e4649b934ca495991b7852b855.
Proof. vm_compute. reflexivity. Qed.
(** "abcdbcdecdefdefgefghfghighijhijkijkljklmklmnlmnomnopnopq" *)
Example sha256_two_blocks :
  be_val (sha256 (flat_map (fun i => map (fun j => 97 + i + j) [0; 1; 2; 3]) [0; 1; 2; 3; 4; 5; 6; 7; 8; 9; 10; 11; 12; 13]))
  = 0x248d6a61d20638b8e5c026930c3e6039a33ce45964ff2167f6ecedd419db06c1.
Proof. vm_compute. reflexivity. Qed.
