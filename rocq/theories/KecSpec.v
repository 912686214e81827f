(** Specification of Keccak-256: the permutation Keccak-f[1600] and the sponge of FIPS 202 with rate 1088, and the padding 1 0* 1 of the
    original Keccak submission (no domain bits), as Ethereum uses it. *)
From Coq Require Import ZArith List Bool.
Import ListNotations.
Local Open Scope Z_scope.

(** lanes are integers below 2^64; lane (x, y) of a state is entry [x + 5 y] *)
Definition kstate : Type := list Z.
Definition lane (A : kstate) (x y : nat) : Z := nth (x mod 5 + 5 * (y mod 5)) A 0.
Definition mk_state (f : nat -> nat -> Z) : kstate := map (fun n => f (n mod 5)%nat (n / 5)%nat) (seq 0 25).
Definition rotl64 (a n : Z) : Z := Z.lor (Z.shiftl a n mod 2 ^ 64) (Z.shiftr a (64 - n)).
Definition not64 (a : Z) : Z := 2 ^ 64 - 1 - a.

(** FIPS 202, 3.2.1 *)
Definition theta (A : kstate) : kstate :=
  let C x := fold_left Z.lxor (map (lane A x) (seq 0 5)) 0 in
  let D x := Z.lxor (C ((x + 4) mod 5)%nat) (rotl64 (C ((x + 1) mod 5)%nat) 1) in
  mk_state (fun x y => Z.lxor (lane A x y) (D x)).
(** 3.2.2: the offset of lane (x, y): (t + 1)(t + 2)/2 mod 64, where (x, y) is the [t]-th point from (1, 0) under (x, y) -> (y, 2x + 3y) *)
Fixpoint rho_walk (t : nat) (fuel : nat) (px py x y : nat) : Z :=
  match fuel with
  | O => 0
  | S fuel => if (Nat.eqb px x && Nat.eqb py y)%bool then (Z.of_nat ((t + 1) * (t + 2) / 2)) mod 64
              else rho_walk (S t) fuel py ((2 * px + 3 * py) mod 5)%nat x y
  end.
Definition rho_offset (x y : nat) : Z := rho_walk 0 24 1 0 x y.
Definition rho (A : kstate) : kstate := mk_state (fun x y => rotl64 (lane A x y) (rho_offset x y)).
(** 3.2.3 *)
Definition pi (A : kstate) : kstate := mk_state (fun x y => lane A (x + 3 * y) x).
(** 3.2.4 *)
Definition chi (A : kstate) : kstate := mk_state (fun x y => Z.lxor (lane A x y) (Z.land (not64 (lane A (x + 1) y)) (lane A (x + 2) y))).
(** 3.2.5: the bit rc(t), from the linear feedback shift register; its state is an integer, bit [i] being R[i] *)
Fixpoint lfsr (t : nat) : Z :=
  match t with
  | O => 1
  | S t => let R := 2 * lfsr t in if Z.testbit R 8 then Z.lxor R 0x171 else R
  end.
Definition rc_bit (t : nat) : Z := Z.b2z (Z.testbit (lfsr (t mod 255)) 0).
Definition round_const (ir : nat) : Z := fold_right Z.add 0 (map (fun j => rc_bit (j + 7 * ir) * 2 ^ (2 ^ Z.of_nat j - 1)) (seq 0 7)).
Definition iota (ir : nat) (A : kstate) : kstate :=
  mk_state (fun x y => if (Nat.eqb x 0 && Nat.eqb y 0)%bool then Z.lxor (lane A 0 0) (round_const ir) else lane A x y).
Definition kround (A : kstate) (ir : nat) : kstate := iota ir (chi (pi (rho (theta A)))).
Definition keccak_f (A : kstate) : kstate := fold_left kround (seq 0 24) A.

(** the sponge: 136 bytes per block, as 17 little-endian lanes *)
Fixpoint le_bytes (l : list Z) : Z := match l with [] => 0 | b :: l => b + 256 * le_bytes l end.
Definition pad101 (msg : list Z) : list Z :=
  let n := (136 - length msg mod 136)%nat in
  msg ++ (if Nat.eqb n 1 then [0x81] else 0x01 :: repeat 0 (n - 2) ++ [0x80]).
Definition block_lanes (block : list Z) : list Z := map (fun i => le_bytes (firstn 8 (skipn (8 * i) block))) (seq 0 17).
Definition absorb (A : kstate) (block : list Z) : kstate :=
  keccak_f (mk_state (fun x y => Z.lxor (lane A x y) (nth (x + 5 * y) (block_lanes block) 0))).
Definition kchunk (b : nat) (l : list Z) : list Z := firstn 136 (skipn (136 * b) l).
Definition keccak_state (msg : list Z) : kstate :=
  fold_left absorb (map (fun b => kchunk b (pad101 msg)) (seq 0 (S (length msg / 136)))) (repeat 0 25).
Definition lane_bytes (a : Z) : list Z := map (fun i => Z.shiftr a (8 * Z.of_nat i) mod 256) (seq 0 8).
Definition keccak256 (msg : list Z) : list Z := flat_map (fun x => lane_bytes (lane (keccak_state msg) x 0)) (seq 0 4).
(** a digest as two 128-bit integers, read in big-endian order *)
Fixpoint be_bytes (acc : Z) (l : list Z) : Z := match l with [] => acc | b :: l => be_bytes (256 * acc + b) l end.
Definition digest_hi (d : list Z) : Z := be_bytes 0 (firstn 16 d).
Definition digest_lo (d : list Z) : Z := be_bytes 0 (skipn 16 d).

(** Test vectors *)
Example keccak256_empty : keccak256 [] =
  [0xc5; 0xd2; 0x46; 0x01; 0x86; 0xf7; 0x23; 0x3c; 0x92; 0x7e; 0x7d; 0xb2; 0xdc; 0xc7; 0x03; 0xc0;
   0xe5; 0x00; 0xb6; 0x53; 0xca; 0x82; 0x27; 0x3b; 0x7b; 0xfa; 0xd8; 0x04; 0x5d; 0x85; 0xa4; 0x70].
Proof. vm_compute. reflexivity. Qed.
Example keccak256_abc : keccak256 [0x61; 0x62; 0x63] =
  [0x4e; 0x03; 0x65; 0x7a; 0xea; 0x45; 0xa9; 0x4f; 0xc7; 0xd4; 0x7b; 0xa8; 0x26; 0xc8; 0xd6; 0x67;
   0xc0; 0xd1; 0xe6; 0xe3; 0x3a; 0x64; 0xa0; 0x36; 0xec; 0x44; 0xf5; 0x8f; 0xa1; 0x2d; 0x6c; 0x45].
Proof. vm_compute. reflexivity. Qed.
