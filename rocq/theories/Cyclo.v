(** The cyclotomic subgroup [{a : a^(q^4 - q^2 + 1) = 1}] of Fp12: the quadratic relations between the coordinates of its elements,
    which give compression, decompression and squaring in compressed form (Theorems 3.1 and 3.2 of eprint 2010/542). *)
From Coq Require Import ZArith NArith Znumtheory Lia List Bool Ring.
From Verif Require Import Field Spec Context Utils Logic Gate GateProofs Pocklington ExtSpec ExtSpec2 RingPow CycSpec FrobSpec.
Import ListNotations.
Local Open Scope Z_scope.

Section Cyclo.
Context {m : positive} (xi0 : Z).
Notation X2 := (x2 m).
Notation xi := (xi (m:=m) xi0).
Notation w6 := (w6 (m:=m)).
Context (Hm : prime (Z.pos m)) (H3 : Z.pos m mod 4 = 3) (H6 : Z.pos m mod 6 = 1).
Notation q := (N.pos m).
Notation mul := (w6_mul (m:=m) xi0).
Notation pw := (npow (w6_1 (m:=m)) mul).
Notation p2 := (npow (x2_1 (m:=m)) x2_mul).
Notation WR := (w6_ring (m:=m) xi0).
Add Ring X2ringf : (x2_ring (m:=m)).
Add Ring W6ringf : WR.
Add Ring Fringmf : (F_ring m) (morphism (F_morph m), constants [Fcst]).
Ltac tuple := repeat match goal with |- (_, _) = (_, _) => apply f_equal2 end.
Notation z := (zeta (m:=m) xi0).
Declare Scope x2_scope.
Infix "+" := x2_add : x2_scope.
Infix "*" := x2_mul : x2_scope.
Infix "-" := x2_sub : x2_scope.
Local Open Scope x2_scope.
Notation "0" := (x2_0 (m:=m)) : x2_scope.
Notation "1" := (x2_1 (m:=m)) : x2_scope.
(** [zeta] is a primitive sixth root of unity *)
Definition primitive6 : Prop := z * z = z - 1.
Context (Hz : primitive6).
Notation mulN := N.mul.
(** [q^4 - q^2 + 1] *)
Definition PHI : N := (q ^ 4 - q ^ 2 + 1)%N.
Definition cyc (a : w6) : Prop := pw a PHI = w6_1.
Lemma q4 : (q ^ 4 = q ^ 2 * q ^ 2)%N. Proof. now rewrite <- N.pow_add_r. Qed.
Lemma q_6 : (q ^ 6 = q ^ 2 * q ^ 2 * q ^ 2)%N. Proof. now rewrite <- !N.pow_add_r. Qed.
Lemma q12 : (q ^ 12 = q ^ 6 * q ^ 6)%N. Proof. now rewrite <- !N.pow_add_r. Qed.
Lemma q2_pos : (0 < q ^ 2)%N. Proof. apply N.neq_0_lt_0, N.pow_nonzero. lia. Qed.
Lemma PHI_q2 : (PHI + q ^ 2 = q ^ 4 + 1)%N. Proof. unfold PHI. rewrite q4. pose proof q2_pos. nia. Qed.
Lemma PHI_q6 : (PHI * (q ^ 2 + 1) = q ^ 6 + 1)%N.
Proof. unfold PHI. rewrite q4, q_6. pose proof q2_pos. set (s := (q ^ 2)%N) in *. clearbody s. assert (s * s - s + 1 + s = s * s + 1)%N by nia. nia. Qed.
Lemma PHI_q12 : (PHI * (q ^ 2 + 1) * (q ^ 6 - 1) = q ^ 12 - 1)%N.
Proof. rewrite PHI_q6, q12. assert (0 < q ^ 6)%N by (apply N.neq_0_lt_0, N.pow_nonzero; lia). nia. Qed.
Definition zs (k : X2) (a : w6) : w6 := let '(a0, a1, a2, a3, a4, a5) := a in let k2 := k * k in (a0, a1 * k, a2 * k2, a3 * (k * k2), a4 * (k2 * k2), a5 * (k * (k2 * k2))).
Lemma frob_q2 a : pw a (q ^ 2) = zs z a. Proof. rewrite (frob_2 xi0 Hm H3 H6). destruct a as [[[[[a0 a1] a2] a3] a4] a5]. reflexivity. Qed.
Lemma frob_q4 a : pw a (q ^ 4) = zs z (zs z a). Proof. rewrite q4, (npow_mul _ _ _ _ _ _ WR), !frob_q2. reflexivity. Qed.
Lemma z3 : z * (z * z) = x2_opp 1.
Proof. unfold primitive6 in Hz. rewrite Hz. transitivity (z * z - z); [ring|]. rewrite Hz. ring. Qed.
Lemma frob_q6 a : pw a (q ^ 6) = let '(a0, a1, a2, a3, a4, a5) := a in (a0, x2_opp a1, a2, x2_opp a3, a4, x2_opp a5).
Proof.
  rewrite q_6, !(npow_mul _ _ _ _ _ _ WR), !frob_q2. destruct a as [[[[[a0 a1] a2] a3] a4] a5]. unfold zs. pose proof z3 as E. tuple; try ring.
  - transitivity (a1 * (z * (z * z))); [ring|]. rewrite E. ring.
  - transitivity (a2 * ((z * (z * z)) * (z * (z * z)))); [ring|]. rewrite E. ring.
  - transitivity (a3 * ((z * (z * z)) * (z * (z * z)) * (z * (z * z)))); [ring|]. rewrite E. ring.
  - transitivity (a4 * ((z * (z * z)) * (z * (z * z)) * (z * (z * z)) * (z * (z * z)))); [ring|]. rewrite E. ring.
  - transitivity (a5 * ((z * (z * z)) * (z * (z * z)) * (z * (z * z)) * (z * (z * z)) * (z * (z * z)))); [ring|]. rewrite E. ring.
Qed.
Lemma frob_q12 a : pw a (q ^ 12) = a.
Proof.
  rewrite q12, (npow_mul _ _ _ _ _ _ WR), !frob_q6. destruct a as [[[[[a0 a1] a2] a3] a4] a5]. tuple; ring.
Qed.
(** the period of the Frobenius map is 12 *)
Lemma frob_mod12 a j : pw a (q ^ N.of_nat j) = pw a (q ^ N.of_nat (j mod 12)).
Proof.
  pose proof (Nat.div_mod j 12 ltac:(lia)) as E. rewrite E at 1. generalize (j / 12)%nat. intros t. induction t as [|t IH].
  - replace (12 * 0 + j mod 12)%nat with (j mod 12)%nat by lia. reflexivity.
  - replace (12 * S t + j mod 12)%nat with (12 + (12 * t + j mod 12))%nat by lia. rewrite Nat2N.inj_add, N.pow_add_r, (npow_mul _ _ _ _ _ _ WR). change (N.of_nat 12) with 12%N. now rewrite frob_q12.
Qed.

(** ** Closure *)
Lemma cyc_1 : cyc w6_1. Proof. apply (npow_one _ _ _ _ _ _ WR). Qed.
Lemma cyc_mul a b : cyc a -> cyc b -> cyc (mul a b). Proof. unfold cyc. intros A B. rewrite (npow_base _ _ _ _ _ _ WR), A, B. ring. Qed.
Lemma cyc_pow a e : cyc a -> cyc (pw a e). Proof. unfold cyc. intros A. rewrite (npow_comm _ _ _ _ _ _ WR), A. apply (npow_one _ _ _ _ _ _ WR). Qed.
(** the inverse is the conjugate *)
Lemma cyc_inv a : cyc a -> mul (pw a (q ^ 6)) a = w6_1.
Proof.
  intros A. rewrite <- (npow_1 _ _ _ _ _ _ WR a) at 2. rewrite <- (npow_add _ _ _ _ _ _ WR), <- PHI_q6, (npow_mul _ _ _ _ _ _ WR), A. apply (npow_one _ _ _ _ _ _ WR).
Qed.

(** ** The relations *)
Section Rel.
Context (a0 a1 a2 a3 a4 a5 : X2).
Notation a := (a0, a1, a2, a3, a4, a5).
Context (A : cyc a).
Lemma E4 : mul (zs z (zs z a)) a = zs z a.
Proof.
  rewrite <- frob_q4, <- frob_q2. rewrite <- (npow_1 _ _ _ _ _ _ WR a) at 2. rewrite <- (npow_add _ _ _ _ _ _ WR), <- PHI_q2, (npow_add _ _ _ _ _ _ WR), A. ring.
Qed.
Lemma w6_eq (b0 b1 b2 b3 b4 b5 c0 c1 c2 c3 c4 c5 : X2) : (b0, b1, b2, b3, b4, b5) = (c0, c1, c2, c3, c4, c5) -> b0 = c0 /\ b1 = c1 /\ b2 = c2 /\ b3 = c3 /\ b4 = c4 /\ b5 = c5.
Proof. intros E. repeat split; [apply (f_equal (fun w : w6 => fst (fst (fst (fst (fst w)))))) in E|apply (f_equal (fun w : w6 => snd (fst (fst (fst (fst w)))))) in E|apply (f_equal (fun w : w6 => snd (fst (fst (fst w))))) in E|apply (f_equal (fun w : w6 => snd (fst (fst w)))) in E|apply (f_equal (fun w : w6 => snd (fst w))) in E|apply (f_equal (fun w : w6 => snd w)) in E]; exact E. Qed.
Notation two := (1 + 1).
(** multiply the k-th component by [z^-k = (1 - z)^k], and reduce with [z^2 = z - 1] *)
Lemma zinv : z * (1 - z) = 1. Proof. transitivity (z - z * z); [ring|]. unfold primitive6 in Hz. rewrite Hz. ring. Qed.
Lemma rels : 
  a0 * a0 + xi * (a3 * a3) = a0 + xi * (a1 * a5 + a2 * a4) /\
  a0 * a1 + xi * (a3 * a4) = a1 + xi * (two * (a2 * a5)) /\
  a1 * a1 + xi * (a4 * a4) = a2 + a0 * a2 + xi * (a3 * a5) /\
  a1 * a2 + xi * (a4 * a5) = a3 + two * (a0 * a3) /\
  a2 * a2 + xi * (a5 * a5) = a4 + a0 * a4 + a1 * a3 /\
  a0 * a5 + a2 * a3 = a5 + two * (a1 * a4).
Proof.
  pose proof E4 as E. unfold zs, w6_mul in E. apply w6_eq in E as (E0 & E1 & E2 & E3 & E5 & E6).
  pose proof Hz as Hz'. unfold primitive6 in Hz'. pose proof zinv as Hi. set (y := zeta xi0) in *. clearbody y.
  assert (S : forall d t s cl cr : X2, cl = cr -> t - s = d * (cl - cr) -> t = s).
  { intros d t s cl cr -> E. transitivity (t - s + s); [ring|]. rewrite E. ring. }
  split; [|split; [|split; [|split; [|split]]]].
  - apply (S 1 _ _ _ _ E0). ring [Hz'].
  - apply (S (1 - y) _ _ _ _ E1). ring [Hz'].
  - apply (S ((1 - y) * (1 - y)) _ _ _ _ E2). ring [Hz'].
  - apply (S ((1 - y) * (1 - y) * (1 - y)) _ _ _ _ E3). ring [Hz'].
  - apply (S ((1 - y) * (1 - y) * (1 - y) * (1 - y)) _ _ _ _ E5). ring [Hz'].
  - apply (S ((1 - y) * (1 - y) * (1 - y) * (1 - y) * (1 - y)) _ _ _ _ E6). ring [Hz'].
Qed.
Lemma unitary :
  a0 * a0 + xi * (two * (a2 * a4)) = 1 + xi * (two * (a1 * a5) + a3 * a3) /\
  two * (a0 * a2) + xi * (a4 * a4) = a1 * a1 + xi * (two * (a3 * a5)) /\
  two * (a0 * a4) + a2 * a2 = two * (a1 * a3) + xi * (a5 * a5).
Proof.
  pose proof (cyc_inv _ A) as E. rewrite frob_q6 in E. unfold w6_mul, w6_1, w6_c in E. apply w6_eq in E as (E0 & _ & E2 & _ & E4 & _).
  assert (S : forall t s cl cr : X2, cl = cr -> t - s = cl - cr -> t = s).
  { intros t s cl cr -> E. transitivity (t - s + s); [ring|]. rewrite E. ring. }
  split; [|split].
  - apply (S _ _ _ _ E0). ring.
  - apply (S _ _ _ _ E2). ring.
  - apply (S _ _ _ _ E4). ring.
Qed.
Notation three := (1 + 1 + 1).
Lemma comb (t s cl cr cl' cr' k k' : X2) : cl = cr -> cl' = cr' -> t - s = k * (cl - cr) + k' * (cl' - cr') -> t = s.
Proof. intros -> -> E. transitivity (t - s + s); [ring|]. rewrite E. ring. Qed.
(** Theorem 3.1 *)
Lemma decompress_g1 : two * two * (a1 * a3) = xi * (a5 * a5) + three * (a2 * a2) - two * a4.
Proof. destruct rels as (R0 & R1 & R2 & R3 & R4 & R5). destruct unitary as (U0 & U2 & U4). apply (comb _ _ _ _ _ _ (x2_opp two) (x2_opp 1) R4 U4). ring. Qed.
Lemma decompress_g0 : a0 = xi * (two * (a3 * a3) + a1 * a5 - three * (a2 * a4)) + 1.
Proof. destruct rels as (R0 & R1 & R2 & R3 & R4 & R5). destruct unitary as (U0 & U2 & U4). apply (comb _ _ _ _ _ _ (x2_opp 1) 1 R0 U0). ring. Qed.
(** Theorem 3.2 *)
Lemma square_coords : exists s0 s3, mul a a =
  (s0, two * (a1 + three * (xi * (a2 * a5))), three * (a1 * a1 + xi * (a4 * a4)) - two * a2, s3, three * (a2 * a2 + xi * (a5 * a5)) - two * a4, two * (a5 + three * (a1 * a4))).
Proof.
  destruct rels as (R0 & R1 & R2 & R3 & R4 & R5). unfold w6_mul. do 2 eexists. tuple; try reflexivity.
  - apply (comb _ _ _ _ _ _ two 0 R1 R1). ring.
  - apply (comb _ _ _ _ _ _ (x2_opp two) 0 R2 R2). ring.
  - apply (comb _ _ _ _ _ _ (x2_opp two) 0 R4 R4). ring.
  - apply (comb _ _ _ _ _ _ two 0 R5 R5). ring.
Qed.
(** ** Fp2 is a field *)
Lemma x2_integral (x y : X2) : x * y = 0 -> x = 0 \/ y = 0.
Proof.
  intros E. destruct (x2_is0 x) eqn:Z0; [left; now apply x2_is0_eq|right]. assert (N : x <> 0) by (intros ->; rewrite (proj2 (x2_is0_eq _) eq_refl) in Z0; discriminate).
  pose proof (x2_inv_ok Hm H3 x N) as I. transitivity (x * x2_inv x * y); [rewrite I; ring|]. transitivity (x2_inv x * (x * y)); [ring|]. rewrite E. ring.
Qed.
Lemma one_nz : (1 : X2) <> 0.
Proof. unfold x2_1, x2_0. intros E. apply (f_equal fst) in E. cbn [fst] in E. now apply (F1_neq_0 m Hm) in E. Qed.
Lemma small_nz k : (0 < k < Z.pos m)%Z -> of_Z m k <> F0.
Proof. intros H E. apply (f_equal val) in E. rewrite val_of_Z_small in E by lia. rewrite val_0 in E. lia. Qed.
Lemma m_ge7 : (7 <= Z.pos m)%Z.
Proof. pose proof (prime_ge_2 _ Hm). destruct (Z_lt_le_dec (Z.pos m) 7) as [L|L]; auto. exfalso. assert (C : (Z.pos m = 2 \/ Z.pos m = 3 \/ Z.pos m = 4 \/ Z.pos m = 5 \/ Z.pos m = 6)%Z) by lia. destruct C as [C|[C|[C|[C|C]]]]; rewrite C in H3, H6; discriminate. Qed.
Lemma two_nz : two <> 0.
Proof. intros E. apply (f_equal fst) in E. unfold x2_1, x2_0, x2_add in E. cbn [fst] in E. pose proof m_ge7. apply (small_nz 2); [lia|]. rewrite <- E. change 2%Z with (1 + 1)%Z. now rewrite of_Z_add. Qed.
Lemma three_nz : three <> 0.
Proof. intros E. apply (f_equal fst) in E. unfold x2_1, x2_0, x2_add in E. cbn [fst] in E. pose proof m_ge7. apply (small_nz 3); [lia|]. rewrite <- E. change 3%Z with (1 + 1 + 1)%Z. now rewrite !of_Z_add. Qed.
Lemma xi_nz : xi <> 0.
Proof. unfold ExtSpec.xi, x2_0. intros E. apply (f_equal snd) in E. cbn [snd] in E. now apply (F1_neq_0 m Hm) in E. Qed.
Lemma x2_cancel (x y k : X2) : k <> 0 -> x * k = y * k -> x = y.
Proof.
  intros N E. assert (P : (x - y) * k = 0). { transitivity (x * k - y * k); [ring|]. rewrite E. ring. }
  destruct (x2_integral _ _ P) as [H|H]; [|contradiction]. transitivity (x - y + y); [ring|]. rewrite H. ring.
Qed.
(** the value of [w^6] is not a square in Fp2 *)
Lemma xi_nonsquare s : s * s <> xi.
Proof.
  intros E. assert (Ns : s <> 0). { intros ->. apply xi_nz. rewrite <- E. ring. }
  pose proof (q6 H6 2) as Q. change (N.of_nat 2) with 2%N in Q.
  assert (P1 : p2 s (q ^ 2 - 1) = 1).
  { apply (x2_cancel _ _ s Ns). pose proof (x2_frob xi0 Hm H3 s 2) as FR. change (N.of_nat 2) with 2%N in FR. unfold cj in FR. cbn [Nat.even] in FR.
    pose proof q2_pos. transitivity (p2 s (N.succ (q ^ 2 - 1))); [rewrite (npow_succ x2_1 x2_mul); ring|]. replace (N.succ (q ^ 2 - 1)) with (q ^ 2)%N by lia. rewrite FR. ring. }
  assert (P2 : z * (z * z) = 1).
  { unfold zeta, gam. change (N.of_nat 2) with 2%N. rewrite <- E. rewrite <- !(npow_add _ _ _ _ _ _ (x2_ring (m:=m))).
    rewrite <- (npow_2 _ _ _ _ _ _ (x2_ring (m:=m)) s), <- (npow_mul _ _ _ _ _ _ (x2_ring (m:=m))). etransitivity; [|exact P1]. f_equal. clear - Q. set (e := ((q ^ 2 - 1) / 6)%N) in *. clearbody e. set (qq := (q ^ 2)%N) in *. clearbody qq. lia. }
  apply two_nz. rewrite z3 in P2. transitivity (1 - x2_opp 1); [ring|]. rewrite P2. ring.
Qed.
(** with [g_2 = g_3 = 0] only the identity can be decompressed *)
Lemma degenerate : a1 = 0 -> a4 = 0 -> a = w6_1.
Proof.
  intros A1 A4. destruct rels as (R0 & R1 & _ & R3 & _). destruct unitary as (U0 & _). pose proof decompress_g1 as D1. rewrite A1, A4 in *.
  assert (P : a2 * a5 = 0).
  { destruct (x2_integral (xi * two) (a2 * a5)) as [H|H]; auto. { transitivity (0 + xi * (two * (a2 * a5))); [ring|]. rewrite <- R1. ring. }
    exfalso. destruct (x2_integral _ _ H); [now apply xi_nz|now apply two_nz]. }
  assert (Q : xi * (a5 * a5) + three * (a2 * a2) = 0). { transitivity (xi * (a5 * a5) + three * (a2 * a2) - two * 0); [ring|]. rewrite <- D1. ring. }
  assert (Z25 : a2 = 0 /\ a5 = 0).
  { assert (SQ : forall x k : X2, k <> 0 -> k * (x * x) = 0 -> x = 0). { intros x k Nk H. destruct (x2_integral _ _ H) as [H'|H']; [contradiction|]. destruct (x2_integral _ _ H'); auto. }
    destruct (x2_integral _ _ P) as [H|H]; rewrite H in *; split; auto.
    - apply (SQ a5 xi xi_nz). transitivity (xi * (a5 * a5) + three * (0 * 0)); [ring|auto].
    - apply (SQ a2 three three_nz). transitivity (xi * (0 * 0) + three * (a2 * a2)); [ring|auto]. }
  destruct Z25 as [A2 A5]. rewrite A2, A5 in *.
  assert (C3 : (1 + two * a0) * a3 = 0). { transitivity (a3 + two * (a0 * a3)); [ring|]. rewrite <- R3. ring. }
  assert (A3 : a3 = 0).
  { destruct (x2_integral _ _ C3) as [H|H]; auto. destruct (x2_is0 a3) eqn:Z0; [now apply x2_is0_eq|]. exfalso.
    assert (N : a3 <> 0) by (intros X; rewrite X, (proj2 (x2_is0_eq _) eq_refl) in Z0; discriminate).
    (* xi (2 a3)^2 = 4 a0^2 - 4 = -3 = (2 z - 1)^2 *)
    assert (S : xi * ((two * a3) * (two * a3)) = (two * z - 1) * (two * z - 1)).
    { assert (S1 : xi * (a3 * a3) = a0 * a0 - 1). { transitivity (1 + xi * (two * (0 * 0) + a3 * a3) - 1); [ring|]. rewrite <- U0. ring. }
      assert (S2 : two * a0 = x2_opp 1). { transitivity (1 + two * a0 - 1); [ring|]. rewrite H. ring. }
      transitivity (two * two * (xi * (a3 * a3))); [ring|]. rewrite S1. transitivity (two * a0 * (two * a0) - two * two); [ring|]. rewrite S2.
      transitivity (two * two * (z * z) - two * two * z + 1); [|ring]. unfold primitive6 in Hz. rewrite Hz. ring. }
    assert (N2 : two * a3 <> 0). { intros X. destruct (x2_integral _ _ X); [now apply two_nz|contradiction]. }
    pose proof (x2_inv_ok Hm H3 _ N2) as I. set (i := x2_inv (two * a3)) in *. clearbody i.
    apply (xi_nonsquare ((two * z - 1) * i)). transitivity ((two * z - 1) * (two * z - 1) * (i * i)); [ring|]. rewrite <- S.
    transitivity (xi * ((two * a3 * i) * (two * a3 * i))); [ring|]. rewrite I. ring. }
  rewrite A3 in *. unfold w6_1, w6_c. tuple; auto.
  assert (E1 : a0 * a0 = 1). { transitivity (a0 * a0 + xi * (two * (0 * 0))); [ring|]. rewrite U0. ring. }
  assert (E2 : a0 * a0 = a0). { transitivity (a0 * a0 + xi * (0 * 0)); [ring|]. rewrite R0. ring. }
  congruence.
Qed.
(** with [g_2 = 0] *)
Lemma decompress_g1' : a1 = 0 -> a3 * a4 = two * (a2 * a5).
Proof.
  intros A1. destruct rels as (_ & R1 & _). rewrite A1 in R1. apply (x2_cancel _ _ xi xi_nz). transitivity (a0 * 0 + xi * (a3 * a4)); [ring|]. rewrite R1. ring.
Qed.
End Rel.
(** the degenerate members of the subgroup *)
Lemma cyc_degenerate a : cyc a -> (let '(_, a1, _, _, a4, _) := a in a1 = 0 /\ a4 = 0) <-> a = w6_1.
Proof.
  intros A. destruct a as [[[[[a0 a1] a2] a3] a4] a5]. split; [intros [A1 A4]; now apply degenerate|]. unfold w6_1, w6_c. intros E. apply w6_eq in E as (_ & ? & _ & _ & ? & _). auto.
Qed.
End Cyclo.
