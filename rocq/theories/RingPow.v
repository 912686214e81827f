(** Powers in a commutative ring, and the Frobenius map: in characteristic [q] prime, [x |-> x^q] is additive. *)
From Coq Require Import ZArith NArith Znumtheory Lia List Bool Ring.
Import ListNotations.

(** ** Binomial coefficients *)
Fixpoint binom (n k : nat) : nat :=
  match n, k with
  | _, O => 1
  | O, S _ => 0
  | S n, S k => binom n k + binom n (S k)
  end.
Lemma binom_0 n : binom n 0 = 1%nat. Proof. now destruct n. Qed.
Lemma binom_gt n : forall k, (n < k)%nat -> binom n k = 0%nat.
Proof. induction n as [|n IH]; intros [|k] H; cbn [binom]; try lia. rewrite !IH; lia. Qed.
Lemma binom_n n : binom n n = 1%nat.
Proof. induction n as [|n IH]; cbn [binom]; auto. rewrite IH, binom_gt; lia. Qed.
Lemma binom_absorb n : forall k, (S k * binom (S n) (S k) = S n * binom n k)%nat.
Proof.
  induction n as [|n IH]; intros k.
  - destruct k as [|[|k]]; cbn [binom]; lia.
  - destruct k as [|k].
    + pose proof (IH 0%nat) as H. cbn [binom] in *. rewrite !binom_0 in *. lia.
    + change (binom (S (S n)) (S (S k))) with (binom (S n) (S k) + binom (S n) (S (S k)))%nat.
      pose proof (IH k) as H1. pose proof (IH (S k)) as H2.
      change (binom (S n) (S k)) with (binom n k + binom n (S k))%nat in H1 at 1. change (binom (S n) (S k)) with (binom n k + binom n (S k))%nat. nia.
Qed.
Lemma prime_binom q k : prime (Z.of_nat q) -> (0 < k < q)%nat -> (Z.of_nat q | Z.of_nat (binom q k))%Z.
Proof.
  intros Hq Hk. destruct q as [|n]; [lia|]. destruct k as [|k]; [lia|].
  pose proof (binom_absorb n k) as H. apply (f_equal Z.of_nat) in H. rewrite !Nat2Z.inj_mul in H.
  assert (D : (Z.of_nat (S n) | Z.of_nat (S k) * Z.of_nat (binom (S n) (S k)))%Z) by (exists (Z.of_nat (binom n k)); rewrite H; ring).
  apply (Gauss _ _ _ D). apply prime_rel_prime; auto. intros [c Hc].
  assert (0 < c)%Z by nia. nia.
Qed.

Section RingPow.
Context {R : Type} (rO rI : R) (radd rmul rsub : R -> R -> R) (ropp : R -> R).
Context (RT : ring_theory rO rI radd rmul rsub ropp eq).
Add Ring Rr : RT.
Notation "x + y" := (radd x y).
Notation "x * y" := (rmul x y).
(** [x^e], the [e]-fold product *)
Definition npow (x : R) (e : N) : R := N.iter e (rmul x) rI.
Lemma npow_0 x : npow x 0 = rI. Proof. reflexivity. Qed.
Lemma npow_succ x e : npow x (N.succ e) = x * npow x e. Proof. unfold npow. now rewrite N.iter_succ. Qed.
Lemma npow_1 x : npow x 1 = x. Proof. change 1%N with (N.succ 0). rewrite npow_succ, npow_0. ring. Qed.
Lemma npow_add x e f : npow x (e + f) = npow x e * npow x f.
Proof. induction e as [|e IH] using N.peano_ind; [rewrite N.add_0_l, npow_0; ring|]. rewrite N.add_succ_l, !npow_succ, IH. ring. Qed.
Lemma npow_one e : npow rI e = rI.
Proof. induction e as [|e IH] using N.peano_ind; auto. rewrite npow_succ, IH. ring. Qed.
Lemma npow_base x y e : npow (x * y) e = npow x e * npow y e.
Proof. induction e as [|e IH] using N.peano_ind; [rewrite !npow_0; ring|]. rewrite !npow_succ, IH. ring. Qed.
Lemma npow_mul x e f : npow x (e * f) = npow (npow x e) f.
Proof. induction f as [|f IH] using N.peano_ind; [now rewrite N.mul_0_r|]. rewrite N.mul_succ_r, npow_add, IH, npow_succ. ring. Qed.
Lemma npow_comm x e f : npow (npow x e) f = npow (npow x f) e. Proof. rewrite <- !npow_mul. f_equal. lia. Qed.
Lemma npow_2 x : npow x 2 = x * x. Proof. change 2%N with (N.succ 1). now rewrite npow_succ, npow_1. Qed.

(** ** The binomial theorem *)
Fixpoint nmul (k : nat) (x : R) : R := match k with O => rO | S k => x + nmul k x end.
Fixpoint rsum (n : nat) (f : nat -> R) : R := match n with O => rO | S n => rsum n f + f n end.
Lemma nmul_add a b x : nmul (a + b)%nat x = nmul a x + nmul b x.
Proof. induction a as [|a IH]; cbn [nmul Nat.add]; [ring|]. rewrite IH. ring. Qed.
Lemma nmul_mulr a x y : y * nmul a x = nmul a (y * x).
Proof. induction a as [|a IH]; cbn [nmul]; [ring|]. rewrite <- IH. ring. Qed.
Lemma nmul_nmul a b x : nmul (a * b)%nat x = nmul b (nmul a x).
Proof. rewrite Nat.mul_comm. induction b as [|b IH]; cbn [nmul Nat.mul]; auto. now rewrite nmul_add, IH. Qed.
Lemma nmul_0 a : nmul a rO = rO. Proof. induction a as [|a IH]; cbn [nmul]; auto. rewrite IH. ring. Qed.
Lemma rsum_ext n f g : (forall k, (k < n)%nat -> f k = g k) -> rsum n f = rsum n g.
Proof. induction n as [|n IH]; intros H; cbn [rsum]; auto. rewrite IH, H; auto. Qed.
Lemma rsum_mul n f y : y * rsum n f = rsum n (fun k => y * f k).
Proof. induction n as [|n IH]; cbn [rsum]; [ring|]. rewrite <- IH. ring. Qed.
Lemma rsum_add n f g : rsum n f + rsum n g = rsum n (fun k => f k + g k).
Proof. induction n as [|n IH]; cbn [rsum]; [ring|]. rewrite <- IH. ring. Qed.
Lemma rsum_first n f : rsum (S n) f = f 0%nat + rsum n (fun k => f (S k)).
Proof. induction n as [|n IH]; cbn [rsum] in *; [ring|]. rewrite IH. ring. Qed.
Lemma rsum_0 n f : (forall k, (k < n)%nat -> f k = rO) -> rsum n f = rO.
Proof. induction n as [|n IH]; intros H; cbn [rsum]; auto. rewrite IH, H; auto. ring. Qed.
Fixpoint upow (x : R) (k : nat) : R := match k with O => rI | S k => x * upow x k end.
Lemma upow_npow x k : upow x k = npow x (N.of_nat k).
Proof. induction k as [|k IH]; [reflexivity|]. rewrite Nat2N.inj_succ, npow_succ, <- IH. reflexivity. Qed.
Definition bterm (x y : R) (n k : nat) : R := nmul (binom n k) (upow x k * upow y (n - k)).
Theorem binomial x y n : upow (x + y) n = rsum (S n) (bterm x y n).
Proof.
  induction n as [|n IH].
  - cbn [upow rsum]. unfold bterm. cbn [binom upow Nat.sub nmul]. ring.
  - cbn [upow]. rewrite IH.
    transitivity (x * rsum (S n) (bterm x y n) + y * rsum (S n) (bterm x y n)); [ring|].
    rewrite !rsum_mul. rewrite (rsum_first (S n) (bterm x y (S n))). 
    assert (E : rsum (S n) (fun k => bterm x y (S n) (S k)) = rsum (S n) (fun k => x * bterm x y n k) + rsum (S n) (fun k => nmul (binom n (S k)) (upow x (S k) * upow y (n - k)))).
    { rewrite rsum_add. apply rsum_ext. intros k Hk. unfold bterm. cbn [binom Nat.sub]. rewrite nmul_add, nmul_mulr. cbn [upow]. f_equal. f_equal. ring. }
    rewrite E. rewrite (rsum_first n (fun k => y * bterm x y n k)).
    assert (E2 : rsum (S n) (fun k => nmul (binom n (S k)) (upow x (S k) * upow y (n - k))) = rsum n (fun k => y * bterm x y n (S k))).
    { cbn [rsum]. rewrite (binom_gt n (S n)) by lia. cbn [nmul].
      assert (E3 : rsum n (fun k => nmul (binom n (S k)) (upow x (S k) * upow y (n - k))) = rsum n (fun k => y * bterm x y n (S k))).
      { apply rsum_ext. intros k Hk. unfold bterm. rewrite nmul_mulr. f_equal. replace (n - k)%nat with (S (n - S k)) by lia. cbn [upow]. ring. }
      rewrite E3. ring. }
    assert (B0 : forall N, bterm x y N 0 = upow y N) by (intros N; unfold bterm; rewrite binom_0, Nat.sub_0_r; cbn [nmul upow]; ring).
    rewrite E2, !B0. cbn [upow]. ring.
Qed.
(** the freshman's dream *)
Theorem frobenius_add (q : nat) x y : prime (Z.of_nat q) -> (forall z, nmul q z = rO) -> upow (x + y) q = upow x q + upow y q.
Proof.
  intros Hq Hc. pose proof (prime_ge_2 _ Hq). rewrite binomial. destruct q as [|q]; [lia|].
  rewrite rsum_first. cbn [rsum]. rewrite rsum_0.
  - unfold bterm. rewrite binom_0, binom_n, Nat.sub_0_r, Nat.sub_diag. cbn [nmul upow]. ring.
  - intros k Hk. unfold bterm. destruct (prime_binom (S q) (S k) Hq ltac:(lia)) as [c Hc'].
    assert (E : binom (S q) (S k) = (S q * Z.to_nat c)%nat). { apply Nat2Z.inj. rewrite Nat2Z.inj_mul, Z2Nat.id by nia. rewrite Hc'. ring. }
    rewrite E, nmul_nmul, Hc. apply nmul_0.
Qed.
(** in terms of [N] exponents: additivity of [x |-> x^(q^j)] *)
Theorem npow_frobenius (q : positive) (j : nat) x y : prime (Z.pos q) -> (forall z, nmul (Pos.to_nat q) z = rO) ->
  npow (x + y) (N.pos q ^ N.of_nat j) = npow x (N.pos q ^ N.of_nat j) + npow y (N.pos q ^ N.of_nat j).
Proof.
  intros Hq Hc. assert (F : forall x y, npow (x + y) (N.pos q) = npow x (N.pos q) + npow y (N.pos q)).
  { intros a b. replace (N.pos q) with (N.of_nat (Pos.to_nat q)) by lia. rewrite <- !upow_npow. apply frobenius_add; auto. now rewrite positive_nat_Z. }
  induction j as [|j IH]; [change (N.pos q ^ N.of_nat 0)%N with 1%N; now rewrite !npow_1|].
  rewrite Nat2N.inj_succ, N.pow_succ_r', N.mul_comm. rewrite !npow_mul, IH. apply F.
Qed.
End RingPow.
