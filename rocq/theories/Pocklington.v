(** Primality certificates (Pocklington's criterion), used only to show that the real BN254 moduli satisfy the hypotheses of the
    theorems. Nothing here models the code. *)
From Coq Require Import ZArith Znumtheory Lia List Permutation.
Import ListNotations.
Local Open Scope Z_scope.

(** ** Fermat's little theorem *)
Definition prodZ (l : list Z) : Z := fold_right Z.mul 1 l.
Lemma prodZ_perm l l' : Permutation l l' -> prodZ l = prodZ l'.
Proof. unfold prodZ. induction 1; cbn [fold_right]; [reflexivity|now f_equal|ring|congruence]. Qed.
Section Fermat.
Variable r : Z.
Hypothesis Pr : prime r.
Let L := map Z.of_nat (seq 1 (Z.to_nat (r - 1))).
Lemma L_in x : In x L <-> 0 < x < r.
Proof.
  pose proof (prime_ge_2 _ Pr). unfold L. rewrite in_map_iff. split.
  - intros (y & <- & Hy). apply in_seq in Hy. lia.
  - intros Hx. exists (Z.to_nat x). split; [lia|]. apply in_seq. lia.
Qed.
Lemma map_NoDup {A B} (f : A -> B) l : (forall x y, In x l -> In y l -> f x = f y -> x = y) -> NoDup l -> NoDup (map f l).
Proof.
  intros Hf. induction 1 as [|x l Hx HN IH]; cbn; constructor.
  - rewrite in_map_iff. intros (y & E & Hy). apply Hx. rewrite (Hf x y); auto; now left + now right.
  - apply IH. intros; apply Hf; auto; now right.
Qed.
Lemma prod_mod a (l : list Z) : prodZ (map (fun x => (a * x) mod r) l) mod r = (a ^ Z.of_nat (length l) * prodZ l) mod r.
Proof.
  induction l as [|x l IH]; [reflexivity|]. cbn [map prodZ fold_right length]. fold (prodZ l) (prodZ (map (fun x => (a * x) mod r) l)).
  rewrite Z.mul_mod_idemp_l by (pose proof (prime_ge_2 _ Pr); lia). rewrite <- Z.mul_mod_idemp_r by (pose proof (prime_ge_2 _ Pr); lia). rewrite IH.
  rewrite Z.mul_mod_idemp_r by (pose proof (prime_ge_2 _ Pr); lia). f_equal. rewrite Nat2Z.inj_succ, Z.pow_succ_r by lia. ring.
Qed.
Lemma prodZ_prime (l : list Z) : (forall x, In x l -> 0 < x < r) -> ~ (r | prodZ l).
Proof.
  induction l as [|x l IH]; intros H D; cbn in D.
  - pose proof (prime_ge_2 _ Pr). apply Z.divide_1_r_nonneg in D; lia.
  - apply prime_mult in D as [D|D]; auto.
    + specialize (H x (or_introl eq_refl)). apply Z.divide_pos_le in D; lia.
    + apply IH; auto. intros; apply H; now right.
Qed.
Lemma fermat a : ~ (r | a) -> (r | a ^ (r - 1) - 1).
Proof.
  intros Ha. pose proof (prime_ge_2 _ Pr) as H2.
  assert (HP : Permutation (map (fun x => (a * x) mod r) L) L).
  { apply NoDup_Permutation_bis.
    - apply map_NoDup.
      + intros x y Hx Hy E. apply L_in in Hx, Hy.
        assert (D : (r | a * (x - y))).
        { rewrite Z.mul_sub_distr_l. apply Z.mod_divide; [lia|]. rewrite Zminus_mod, E, Z.sub_diag. apply Z.mod_0_l. lia. }
        apply prime_mult in D as [D|D]; auto; [contradiction|]. destruct D as [u Hu].
        assert (u = 0) by nia. lia.
      + unfold L. apply map_NoDup; [intros; lia|]. apply seq_NoDup.
    - rewrite map_length. lia.
    - intros z Hz. apply in_map_iff in Hz as (x & <- & Hx). apply L_in in Hx. apply L_in.
      pose proof (Z.mod_pos_bound (a * x) r ltac:(lia)). assert ((a * x) mod r <> 0); [|lia]. intros E.
      apply Z.mod_divide in E; [|lia]. apply prime_mult in E as [E|E]; auto. apply Z.divide_pos_le in E; lia. }
  apply prodZ_perm in HP. pose proof (prod_mod a L) as E. rewrite HP in E.
  assert (EL : Z.of_nat (length L) = r - 1). { unfold L. rewrite map_length, seq_length. lia. }
  rewrite EL in E.
  assert (D : (r | (a ^ (r - 1) - 1) * prodZ L)).
  { rewrite Z.mul_sub_distr_r, Z.mul_1_l. apply Z.mod_divide; [lia|]. rewrite Zminus_mod, <- E, Z.sub_diag. apply Z.mod_0_l. lia. }
  apply prime_mult in D as [D|D]; auto. exfalso. revert D. apply prodZ_prime. intros x. apply L_in.
Qed.
End Fermat.

(** every number above 1 has a prime divisor; a composite one has a prime divisor of square at most itself *)
Lemma prime_divisor_ex n : 1 < n -> exists r, prime r /\ (r | n).
Proof.
  intros Hn. assert (H0 : 0 <= n) by lia. revert Hn. revert n H0. apply (Z_lt_induction (fun n => 1 < n -> exists r, prime r /\ (r | n))).
  intros n IH Hn. destruct (prime_dec n) as [P|P]; [exists n; split; auto; apply Z.divide_refl|].
  destruct (not_prime_divide n Hn P) as (d & Hd & D). destruct (IH d ltac:(lia) ltac:(lia)) as (r & Pr & Dr). exists r. split; auto. eapply Z.divide_trans; eauto.
Qed.
Lemma prime_by_divisors n : 1 < n -> (forall r, prime r -> (r | n) -> n < r * r) -> prime n.
Proof.
  intros Hn H. destruct (prime_dec n) as [P|P]; auto. exfalso. destruct (not_prime_divide n Hn P) as (d & Hd & [c Dc]).
  assert (Hc1 : 1 < c). { destruct (Z_le_gt_dec c 1); [|lia]. assert (c * d <= 1 * d) by (apply Z.mul_le_mono_nonneg_r; lia). lia. }
  assert (Hc : 1 < c < n) by (split; auto; nia).
  destruct (prime_divisor_ex d ltac:(lia)) as (r & Pr & [u Du]). destruct (prime_divisor_ex c ltac:(lia)) as (t & Pt & [v Dv]).
  pose proof (prime_ge_2 _ Pr). pose proof (prime_ge_2 _ Pt).
  assert (r <= d) by (apply Z.divide_pos_le; [lia|exists u; auto]). assert (t <= c) by (apply Z.divide_pos_le; [lia|exists v; auto]).
  assert (A1 : n < r * r) by (apply H; auto; exists (c * u); rewrite Dc, Du; ring). assert (A2 : n < t * t) by (apply H; auto; exists (v * d); rewrite Dc, Dv; ring).
  assert (r * r <= d * d) by nia. assert (t * t <= c * c) by nia. destruct (Z_le_gt_dec c d); nia.
Qed.

(** ** Pocklington *)
Lemma pow_gcd_one r a x y : prime r -> ~ (r | a) -> 0 <= x -> 0 <= y -> (r | a ^ x - 1) -> (r | a ^ y - 1) -> (r | a ^ Z.gcd x y - 1).
Proof.
  intros Pr Ha. pose proof (prime_ge_2 _ Pr) as H2.
  assert (G : forall n x y, (Z.to_nat x <= n)%nat -> 0 <= x -> 0 <= y -> (r | a ^ x - 1) -> (r | a ^ y - 1) -> (r | a ^ Z.gcd x y - 1)).
  { clear x y. induction n as [|n IH]; intros x y Hn Hx Hy Dx Dy.
    - assert (x = 0) by lia. subst x. rewrite Z.gcd_0_l, Z.abs_eq; auto.
    - destruct (Z.eq_dec x 0) as [->|Hx0]; [rewrite Z.gcd_0_l, Z.abs_eq; auto|].
      rewrite <- Z.gcd_mod by lia. pose proof (Z.mod_pos_bound y x ltac:(lia)). apply IH; auto; try lia.
      assert (E : a ^ y = (a ^ x) ^ (y / x) * a ^ (y mod x)).
      { rewrite <- Z.pow_mul_r; [|lia|apply Z.div_pos; lia]. rewrite <- Z.pow_add_r; [|apply Z.mul_nonneg_nonneg; [lia|apply Z.div_pos; lia]|lia]. f_equal. apply Z.div_mod. lia. }
      assert (D1 : (r | (a ^ x) ^ (y / x) - 1)).
      { pose proof (Z.div_pos y x Hy ltac:(lia)) as Hq. destruct Dx as [u Hu]. revert Hq. generalize (y / x). apply natlike_ind.
        - rewrite Z.pow_0_r. exists 0. lia.
        - intros q Hq [v Hv]. rewrite Z.pow_succ_r by lia. exists (u * (a ^ x) ^ q + v). nia. }
      destruct D1 as [u Hu]. destruct Dy as [v Hv]. exists (v - u * a ^ (y mod x)). nia. }
  intros Hx. exact (G (Z.to_nat x) x y (le_n _) Hx).
Qed.
Lemma pock_divisor N a q r : prime q -> 1 < N -> (q | N - 1) -> prime r -> (r | N) -> (N | a ^ (N - 1) - 1) -> rel_prime (a ^ ((N - 1) / q) - 1) N -> (q | r - 1).
Proof.
  intros Pq HN [t Ht] Pr Dr D1 RP. pose proof (prime_ge_2 _ Pr). pose proof (prime_ge_2 _ Pq).
  assert (Hr1 : (r | a ^ (N - 1) - 1)) by (eapply Z.divide_trans; eauto).
  assert (Hra : ~ (r | a)).
  { intros [u Hu]. destruct Hr1 as [v Hv]. assert (E : a ^ (N - 1) = a * a ^ (N - 2)). { replace (N - 1) with (Z.succ (N - 2)) by lia. apply Z.pow_succ_r. lia. }
    rewrite E, Hu in Hv. assert (D : (r | 1)). { exists (u * a ^ (N - 2) - v). rewrite Hu. nia. } apply Z.divide_1_r_nonneg in D; lia. }
  pose proof (fermat r Pr a Hra) as Hf.
  pose proof (pow_gcd_one r a (r - 1) (N - 1) Pr Hra ltac:(lia) ltac:(lia) Hf Hr1) as HG. set (g := Z.gcd (r - 1) (N - 1)) in *.
  destruct (Zdivide_dec q (r - 1)) as [D|D]; auto. exfalso.
  assert (Dg1 : (g | r - 1)) by apply Z.gcd_divide_l. assert (Dg2 : (g | N - 1)) by apply Z.gcd_divide_r.
  destruct Dg2 as [s Hs]. assert (Dq : (q | s * g)) by (exists t; lia).
  apply prime_mult in Dq as [Dq|Dq]; auto; [|apply D; eapply Z.divide_trans; eauto].
  destruct Dq as [w Hw]. assert (E : (N - 1) / q = w * g). { replace (N - 1) with (w * g * q) by nia. apply Z.div_mul. lia. }
  assert (Hg : 0 <= g) by apply Z.gcd_nonneg. assert (Hw0 : 0 <= w) by nia.
  assert (DD : (r | a ^ ((N - 1) / q) - 1)).
  { rewrite E, Z.mul_comm, Z.pow_mul_r by lia. destruct HG as [u Hu]. revert Hw0. clear -Hu. revert w. apply natlike_ind.
    - rewrite Z.pow_0_r. exists 0. lia.
    - intros q0 Hq [v Hv]. rewrite Z.pow_succ_r by lia. exists (u * (a ^ g) ^ q0 + v). nia. }
  destruct RP as [_ _ RP]. specialize (RP r DD Dr). apply Z.divide_1_r_nonneg in RP; lia.
Qed.
(** one large factor *)
Theorem pocklington1 N a q : prime q -> 1 < N -> (q | N - 1) -> (N | a ^ (N - 1) - 1) -> rel_prime (a ^ ((N - 1) / q) - 1) N -> N < (q + 1) * (q + 1) -> prime N.
Proof.
  intros Pq HN Dq D1 RP HF. apply prime_by_divisors; auto. intros r Pr Dr. pose proof (pock_divisor N a q r Pq HN Dq Pr Dr D1 RP) as D.
  pose proof (prime_ge_2 _ Pr). apply Z.divide_pos_le in D; [|lia]. pose proof (prime_ge_2 _ Pq). nia.
Qed.
(** two factors *)
Theorem pocklington2 N a q q' : prime q -> prime q' -> q <> q' -> 1 < N -> (q | N - 1) -> (q' | N - 1) -> (N | a ^ (N - 1) - 1) ->
  rel_prime (a ^ ((N - 1) / q) - 1) N -> rel_prime (a ^ ((N - 1) / q') - 1) N -> N < (q * q' + 1) * (q * q' + 1) -> prime N.
Proof.
  intros Pq Pq' Hne HN Dq Dq' D1 RP RP' HF. apply prime_by_divisors; auto. intros r Pr Dr.
  pose proof (pock_divisor N a q r Pq HN Dq Pr Dr D1 RP) as D. pose proof (pock_divisor N a q' r Pq' HN Dq' Pr Dr D1 RP') as D'.
  pose proof (prime_ge_2 _ Pr). pose proof (prime_ge_2 _ Pq). pose proof (prime_ge_2 _ Pq').
  assert (DD : (q * q' | r - 1)).
  { destruct D as [u Hu]. rewrite Hu in D'. apply prime_mult in D' as [D'|D']; auto.
    - destruct D' as [v ->]. exists v. lia.
    - exfalso. apply (prime_div_prime q' q) in D'; auto. }
  apply Z.divide_pos_le in DD; [|lia]. nia.
Qed.

(** ** computing powers with quotient hints: the result is congruent to the power whatever the hints are *)
Definition hd0 (l : list Z) := match l with [] => 0 | x :: _ => x end.
Fixpoint powh (N a : Z) (e : positive) (hs : list Z) : Z * list Z :=
  match e with
  | xH => (a, hs)
  | xO e => let '(x, hs) := powh N a e hs in (Z.square x - hd0 hs * N, tl hs)
  | xI e => let '(x, hs) := powh N a e hs in let y := Z.square x - hd0 hs * N in let hs := tl hs in (y * a - hd0 hs * N, tl hs)
  end.
Lemma powh_ok N a e : forall hs, (N | a ^ Z.pos e - fst (powh N a e hs)).
Proof.
  induction e as [e IH|e IH|]; intros hs; cbn [powh].
  - specialize (IH hs). destruct (powh N a e hs) as [x hs']. cbn [fst] in *. rewrite Z.square_spec. destruct IH as [u Hu].
    replace (Z.pos e~1) with (Z.pos e + Z.pos e + 1) by lia. rewrite !Z.pow_add_r, Z.pow_1_r by lia.
    exists (u * (a ^ Z.pos e + x) * a + hd0 hs' * a + hd0 (tl hs')). replace (a ^ Z.pos e) with (u * N + x) by lia. ring.
  - specialize (IH hs). destruct (powh N a e hs) as [x hs']. cbn [fst] in *. rewrite Z.square_spec. destruct IH as [u Hu].
    replace (Z.pos e~0) with (Z.pos e + Z.pos e) by lia. rewrite !Z.pow_add_r by lia.
    exists (u * (a ^ Z.pos e + x) + hd0 hs'). replace (a ^ Z.pos e) with (u * N + x) by lia. ring.
  - cbn [fst]. exists 0. change (Z.pos 1) with 1. rewrite Z.pow_1_r. lia.
Qed.
Lemma rel_prime_cong N a b u v : (N | a - b) -> (N | (b - 1) * u + v * N - 1) -> rel_prime (a - 1) N.
Proof.
  intros [w Hw] [z Hz]. apply bezout_rel_prime. apply Bezout_intro with (u := u) (v := v - w * u - z). replace a with (w * N + b) by lia. nia.
Qed.

Lemma cong_trans N x y z : (N | x - y) -> (N | y - z) -> (N | x - z).
Proof. intros [u Hu] [v Hv]. exists (u + v). rewrite Z.mul_add_distr_r, <- Hu, <- Hv. ring. Qed.
Lemma cong_pow N x y q : 0 <= q -> (N | x - y) -> (N | x ^ q - y ^ q).
Proof.
  intros Hq [d Hd]. revert q Hq. apply natlike_ind.
  - rewrite !Z.pow_0_r. exists 0. ring.
  - intros q0 Hq [v Hv]. rewrite !Z.pow_succ_r by exact Hq. exists (d * x ^ q0 + y * v).
    transitivity ((x - y) * x ^ q0 + y * (x ^ q0 - y ^ q0)); [ring|]. rewrite Hd, Hv. ring.
Qed.

(** certificate with one factor: [a^((N-1)/q) = b], [b^q = 1], [(b-1)*u = 1] modulo [N] *)
Lemma cert1 N a q b c u w h1 h2 : prime q -> N - 1 = c * q -> 0 < c -> 
  powh N a (Z.to_pos c) h1 = (b, []) -> powh N b (Z.to_pos q) h2 = (1, []) -> (b - 1) * u - 1 = w * N -> N < (q + 1) * (q + 1) -> prime N.
Proof.
  intros Pq Ec Hc E1 E2 E3 HF. pose proof (prime_ge_2 _ Pq).
  pose proof (powh_ok N a (Z.to_pos c) h1) as D1. rewrite E1, Z2Pos.id in D1 by lia. cbn [fst] in D1.
  pose proof (powh_ok N b (Z.to_pos q) h2) as D2. rewrite E2, Z2Pos.id in D2 by lia. cbn [fst] in D2.
  assert (Eq : (N - 1) / q = c) by (rewrite Ec; apply Z.div_mul; lia).
  assert (DP : (N | a ^ (N - 1) - 1)).
  { rewrite Ec, Z.pow_mul_r by lia. apply (cong_trans N _ (b ^ q)); [apply cong_pow; [lia|exact D1]|exact D2]. }
  assert (HN : 1 < N) by (assert (0 < c * q) by (apply Z.mul_pos_pos; lia); lia).
  apply (pocklington1 N a q); auto.
  - exists c. lia.
  - rewrite Eq. apply (rel_prime_cong N _ b u (- w)); auto. exists 0. lia.
Qed.
(** certificate with two factors: [b = a^c], [b1 = b^q'], [b2 = b^q], [b1^q = 1] *)
Lemma cert2 N a q q' c b b1 b2 u1 w1 u2 w2 h0 h1 h2 h3 : prime q -> prime q' -> q <> q' -> N - 1 = c * (q * q') -> 0 < c ->
  powh N a (Z.to_pos c) h0 = (b, []) -> powh N b (Z.to_pos q') h1 = (b1, []) -> powh N b (Z.to_pos q) h2 = (b2, []) -> powh N b1 (Z.to_pos q) h3 = (1, []) ->
  (b1 - 1) * u1 - 1 = w1 * N -> (b2 - 1) * u2 - 1 = w2 * N -> N < (q * q' + 1) * (q * q' + 1) -> prime N.
Proof.
  intros Pq Pq' Hne Ec Hc E0 E1 E2 E3 F1 F2 HF. pose proof (prime_ge_2 _ Pq). pose proof (prime_ge_2 _ Pq').
  pose proof (powh_ok N a (Z.to_pos c) h0) as D0. rewrite E0, Z2Pos.id in D0 by lia. cbn [fst] in D0.
  pose proof (powh_ok N b (Z.to_pos q') h1) as D1. rewrite E1, Z2Pos.id in D1 by lia. cbn [fst] in D1.
  pose proof (powh_ok N b (Z.to_pos q) h2) as D2. rewrite E2, Z2Pos.id in D2 by lia. cbn [fst] in D2.
  pose proof (powh_ok N b1 (Z.to_pos q) h3) as D3. rewrite E3, Z2Pos.id in D3 by lia. cbn [fst] in D3.
  assert (Nq : 0 <= q) by (clear - H; lia). assert (Nq' : 0 <= q') by (clear - H0; lia). assert (Nc : 0 <= c) by (clear - Hc; lia).
  assert (G1 : (N - 1) / q = c * q') by (rewrite Ec; replace (c * (q * q')) with (c * q' * q) by ring; apply Z.div_mul; clear - H; lia).
  assert (G2 : (N - 1) / q' = c * q) by (rewrite Ec; replace (c * (q * q')) with (c * q * q') by ring; apply Z.div_mul; clear - H0; lia).
  assert (C1 : (N | a ^ (c * q') - b1)).
  { rewrite Z.pow_mul_r by assumption. apply (cong_trans N _ (b ^ q')); [apply cong_pow; assumption|exact D1]. }
  assert (C2 : (N | a ^ (c * q) - b2)).
  { rewrite Z.pow_mul_r by assumption. apply (cong_trans N _ (b ^ q)); [apply cong_pow; assumption|exact D2]. }
  assert (DP : (N | a ^ (N - 1) - 1)).
  { rewrite Ec. replace (c * (q * q')) with (c * q' * q) by ring. rewrite (Z.pow_mul_r a (c * q') q); [|apply Z.mul_nonneg_nonneg; assumption|assumption].
    apply (cong_trans N _ (b1 ^ q)); [apply cong_pow; assumption|exact D3]. }
  assert (HN : 1 < N). { clear - Ec Hc H H0. assert (0 < c * (q * q')) by (repeat apply Z.mul_pos_pos; lia). lia. }
  apply (pocklington2 N a q q'); auto.
  - exists (c * q'). rewrite Ec. ring.
  - exists (c * q). rewrite Ec. ring.
  - rewrite G1. apply (rel_prime_cong N _ b1 u1 (- w1)); auto. exists 0. clear - F1. lia.
  - rewrite G2. apply (rel_prime_cong N _ b2 u2 (- w2)); auto. exists 0. clear - F2. lia.
Qed.
