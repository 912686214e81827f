(** Small stand-alone specification vocabulary used in theorem statements.
    Nothing here mentions the model of the code. *)
From Coq Require Import ZArith List Lia Znumtheory.
From Verif Require Import Field.
Import ListNotations.
Local Open Scope Z_scope.

(** the [n] little-endian digits of [v] in base [2^b] *)
Fixpoint digits (b n : nat) (v : Z) : list Z :=
  match n with O => [] | S n => v mod 2 ^ Z.of_nat b :: digits b n (v / 2 ^ Z.of_nat b) end.

(** value of a little-endian digit list in base [2^b] *)
Fixpoint undigits (b : nat) (l : list Z) : Z :=
  match l with [] => 0 | d :: l => d + 2 ^ Z.of_nat b * undigits b l end.

Lemma digits_length b n v : length (digits b n v) = n.
Proof. revert v. induction n; intros; simpl; auto. Qed.

Lemma pow2_pos n : 0 < 2 ^ Z.of_nat n.
Proof. apply Z.pow_pos_nonneg; lia. Qed.

Lemma pow2_S n : 2 ^ Z.of_nat (S n) = 2 * 2 ^ Z.of_nat n.
Proof. rewrite Nat2Z.inj_succ, Z.pow_succ_r; lia. Qed.

Lemma pow2_add m n : 2 ^ Z.of_nat (m + n) = 2 ^ Z.of_nat m * 2 ^ Z.of_nat n.
Proof. rewrite Nat2Z.inj_add, Z.pow_add_r; lia. Qed.

Lemma pow2_le m n : (m <= n)%nat -> 2 ^ Z.of_nat m <= 2 ^ Z.of_nat n.
Proof. intros. apply Z.pow_le_mono_r; lia. Qed.
Lemma pow2_lt m n : (m < n)%nat -> 2 ^ Z.of_nat m < 2 ^ Z.of_nat n.
Proof. intros. apply Z.pow_lt_mono_r; lia. Qed.

Lemma undigits_digits b n : forall v, undigits b (digits b n v) = v mod 2 ^ Z.of_nat (b * n).
Proof.
  induction n as [|n IH]; intros v; cbn [digits undigits].
  - rewrite Nat.mul_0_r. now rewrite Z.mod_1_r.
  - rewrite IH. replace (b * S n)%nat with (b + b * n)%nat by lia. rewrite pow2_add.
    pose proof (pow2_pos b). pose proof (pow2_pos (b * n)). symmetry. apply Z.rem_mul_r; lia.
Qed.

Lemma digits_bound b n v : Forall (fun d => 0 <= d < 2 ^ Z.of_nat b) (digits b n v).
Proof.
  revert v. induction n as [|n IH]; intros; simpl; constructor; auto.
  apply Z.mod_pos_bound, pow2_pos.
Qed.

Lemma undigits_bound b l : Forall (fun d => 0 <= d < 2 ^ Z.of_nat b) l ->
  0 <= undigits b l < 2 ^ Z.of_nat (b * length l).
Proof.
  induction 1 as [|d l Hd _ IH]; cbn [undigits length].
  - rewrite Nat.mul_0_r. simpl. lia.
  - replace (b * S (length l))%nat with (b + b * length l)%nat by lia. rewrite pow2_add.
    pose proof (pow2_pos b). nia.
Qed.

(** uniqueness: bounded digits are the digits of their value *)
Lemma digits_unique b l : Forall (fun d => 0 <= d < 2 ^ Z.of_nat b) l ->
  l = digits b (length l) (undigits b l).
Proof.
  induction 1 as [|d l Hd _ IH]; cbn [undigits length digits]; auto.
  pose proof (pow2_pos b).
  f_equal.
  - rewrite Z.mul_comm, Z.mod_add by lia. symmetry; apply Z.mod_small; lia.
  - rewrite Z.mul_comm, Z.div_add by lia. rewrite (Z.div_small d) by lia. exact IH.
Qed.

Lemma digits_nth b n : forall v i, (i < n)%nat ->
  nth i (digits b n v) 0 = (v / 2 ^ Z.of_nat (b * i)) mod 2 ^ Z.of_nat b.
Proof.
  induction n as [|n IH]; intros v i Hi; [lia|]. destruct i as [|i]; cbn [digits nth].
  - rewrite Nat.mul_0_r. now rewrite Z.div_1_r.
  - rewrite IH by lia. replace (b * S i)%nat with (b + b * i)%nat by lia.
    rewrite pow2_add. rewrite Z.div_div; auto. pose proof (pow2_pos b); lia. apply pow2_pos.
Qed.

(** truth value of a boolean as a field element *)
Definition fbool {p} (b : bool) : F p := if b then F1 else F0.
Definition is_bit {p} (x : F p) : Prop := x = F0 \/ x = F1.

(** inner product and sum of field vectors *)
Fixpoint dot {p} (a b : list (F p)) : F p :=
  match a, b with x :: a, y :: b => (x * y + dot a b)%F | _, _ => F0 end.
Fixpoint fsum {p} (a : list (F p)) : F p :=
  match a with [] => F0 | x :: a => (x + fsum a)%F end.
Fixpoint fprod {p} (a : list (F p)) : F p :=
  match a with [] => F1 | x :: a => (x * fprod a)%F end.
(** polynomial evaluation, coefficients from low to high *)
Fixpoint peval {p} (c : list (F p)) (x : F p) : F p :=
  match c with [] => F0 | a :: c => (a + x * peval c x)%F end.

Lemma Forall2_len {A B} (R : A -> B -> Prop) l l' : Forall2 R l l' -> length l = length l'.
Proof. induction 1; simpl; congruence. Qed.
