(** The Frobenius powers [x |-> x^(q^j)] of Fp12 in coordinates, for a prime [q = m] with [q = 3 (mod 4)] and [q = 1 (mod 6)]. *)
From Coq Require Import ZArith NArith Znumtheory Lia List Bool Ring.
From Verif Require Import Field Spec Context Utils Logic Gate GateProofs Pocklington ExtSpec ExtSpec2 RingPow CycSpec.
Import ListNotations.
Local Open Scope Z_scope.

Section Frob.
Context {m : positive} (xi0 : Z).
Notation X2 := (x2 m).
Notation xi := (xi (m:=m) xi0).
Notation w6 := (w6 (m:=m)).
Context (Hm : prime (Z.pos m)) (H3 : Z.pos m mod 4 = 3) (H6 : Z.pos m mod 6 = 1).
Notation q := (N.pos m).
Notation mul := (w6_mul (m:=m) xi0).
Notation pw := (npow (w6_1 (m:=m)) mul).
Notation p2 := (npow (x2_1 (m:=m)) x2_mul).
Notation WR := (w6_ring (m:=m) xi0).
Add Ring X2ringe : (x2_ring (m:=m)).
Add Ring W6ringe : WR.
Add Ring Fringme : (F_ring m) (morphism (F_morph m), constants [Fcst]).
Ltac tuple := repeat match goal with |- (_, _) = (_, _) => apply f_equal2 end.

Lemma F_npow (x : F m) e : npow F1 Fmul x e = of_Z m (val x ^ Z.of_N e).
Proof.
  induction e as [|e IH] using N.peano_ind; [reflexivity|]. rewrite (npow_succ F1 Fmul), IH, N2Z.inj_succ, Z.pow_succ_r by lia. now rewrite of_Z_mul, of_Z_val.
Qed.
Lemma F_fermat (x : F m) : npow F1 Fmul x q = x.
Proof.
  rewrite F_npow. pose proof (prime_ge_2 _ Hm). destruct (F_dec m x F0) as [->|N].
  - rewrite val_0. change (Z.of_N q) with (Z.pos m). rewrite Z.pow_0_l by lia. reflexivity.
  - rewrite <- (of_Z_val m x) at 2. apply of_Z_eq_iff. change (Z.of_N q) with (Z.pos m).
    assert (D : ~ (Z.pos m | val x)). { intros [c Hc]. apply N. rewrite <- (of_Z_val m x), Hc. change F0 with (of_Z m 0). apply of_Z_eq_iff. now rewrite Z.mod_mul, Z.mod_0_l. }
    pose proof (fermat _ Hm _ D) as [c Hc]. replace (Z.pos m) with (Z.succ (Z.pos m - 1)) at 1 by lia. rewrite Z.pow_succ_r by lia.
    replace (val x ^ (Z.pos m - 1)) with (1 + c * Z.pos m) by lia. replace (val x * (1 + c * Z.pos m)) with (val x + (c * val x) * Z.pos m) by ring. apply Z.mod_add. discriminate.
Qed.
Lemma iF_npow x e : pw (iF x) e = iF (npow F1 Fmul x e).
Proof.
  induction e as [|e IH] using N.peano_ind; [reflexivity|]. rewrite (npow_succ w6_1 mul), (npow_succ F1 Fmul), IH. unfold iF. rewrite c_mul. f_equal.
  unfold x2_mul. cbn [fst snd]. f_equal; ring.
Qed.
Lemma qS j : (q ^ N.of_nat (S j) = q ^ N.of_nat j * q)%N.
Proof. rewrite Nat2N.inj_succ, N.pow_succ_r'. apply N.mul_comm. Qed.
Lemma iF_frob x j : pw (iF x) (q ^ N.of_nat j) = iF x.
Proof.
  induction j as [|j IH]; [change (q ^ N.of_nat 0)%N with 1%N; apply (npow_1 _ _ _ _ _ _ WR)|].
  rewrite qS, (npow_mul _ _ _ _ _ _ WR), IH, iF_npow, F_fermat. reflexivity.
Qed.
Notation u := (w6_u (m:=m)).
Lemma u_2 : pw u 2 = w6_opp w6_1.
Proof. rewrite (npow_2 _ _ _ _ _ _ WR). unfold w6_u. rewrite c_mul. unfold w6_1. rewrite c_opp. f_equal. unfold x2_mul, x2_opp, x2_1. cbn [fst snd]. f_equal; ring. Qed.
Lemma u_q : pw u q = w6_opp u.
Proof.
  pose proof (Z.div_mod (Z.pos m) 4 ltac:(lia)) as E. rewrite H3 in E.
  set (s := Z.to_N (Z.pos m / 4)). assert (Hs : q = (2 * (2 * s + 1) + 1)%N). { assert (0 <= Z.pos m / 4) by (apply Z.div_pos; lia). unfold s. lia. }
  rewrite Hs, (npow_add _ _ _ _ _ _ WR), (npow_mul _ _ _ _ _ _ WR), u_2, (npow_add _ _ _ _ _ _ WR), (npow_mul _ _ _ _ _ _ WR), !(npow_1 _ _ _ _ _ _ WR).
  assert (E1 : pw (w6_opp w6_1) 2 = w6_1) by (rewrite (npow_2 _ _ _ _ _ _ WR); ring). rewrite E1, (npow_one _ _ _ _ _ _ WR). ring.
Qed.
(** conjugation, [j] times *)
Definition cj (j : nat) (x : X2) : X2 := if Nat.even j then x else x2_conj x.
Lemma c_frob x j : pw (w6_c x) (q ^ N.of_nat j) = w6_c (cj j x).
Proof.
  induction j as [|j IH]; [change (q ^ N.of_nat 0)%N with 1%N; apply (npow_1 _ _ _ _ _ _ WR)|].
  rewrite qS, (npow_mul _ _ _ _ _ _ WR), IH. clear IH.
  assert (G : forall y, pw (w6_c y) q = w6_c (x2_conj y)).
  { intros y. rewrite c_split with (xi0 := xi0). replace q with (q ^ N.of_nat 1)%N by (change (N.of_nat 1) with 1%N; apply N.pow_1_r).
    rewrite (npow_frobenius _ _ _ _ _ _ WR m 1 _ _ Hm (char_q)), (npow_base _ _ _ _ _ _ WR), !iF_frob.
    change (N.of_nat 1) with 1%N. rewrite N.pow_1_r, u_q. unfold iF, w6_u. rewrite c_opp, c_mul, c_add. f_equal. destruct y. unfold x2_add, x2_mul, x2_opp, x2_conj. cbn [fst snd]. f_equal; ring. }
  rewrite G. f_equal. unfold cj. rewrite Nat.even_succ, <- Nat.negb_even. destruct (Nat.even j); cbn [negb]; auto.
  destruct x. unfold x2_conj. cbn [fst snd]. f_equal. ring.
Qed.
Lemma c_inj (x y : X2) : w6_c x = w6_c y -> x = y. Proof. intros H. apply (f_equal (fun a : w6 => let '(a0, _, _, _, _, _) := a in a0)) in H. exact H. Qed.
Lemma x2_frob x j : p2 x (q ^ N.of_nat j) = cj j x.
Proof. apply c_inj. rewrite <- (c_pow xi0). apply c_frob. Qed.
(** halo2curves' FROBENIUS_COEFF_FQ12_C1[j] *)
Definition gam (j : nat) : X2 := p2 xi ((q ^ N.of_nat j - 1) / 6)%N.
Lemma q6 j : (q ^ N.of_nat j = 6 * ((q ^ N.of_nat j - 1) / 6) + 1)%N.
Proof.
  assert (E : (q ^ N.of_nat j mod 6 = 1)%N).
  { induction j as [|j IH]; [reflexivity|]. rewrite qS, N.mul_mod, IH by lia. assert (Q : (q mod 6 = 1)%N). { apply N2Z.inj. rewrite N2Z.inj_mod by lia. exact H6. } rewrite Q. reflexivity. }
  assert (L : (q ^ N.of_nat j <> 0)%N) by (apply N.pow_nonzero; lia).
  pose proof (N.div_mod (q ^ N.of_nat j) 6 ltac:(lia)) as D. rewrite E in D. set (Q := (q ^ N.of_nat j)%N) in *. clearbody Q.
  assert (E2 : (Q - 1 = Q / 6 * 6)%N) by lia. rewrite E2, N.div_mul by lia. lia.
Qed.
Lemma w_frob j : pw w6_w (q ^ N.of_nat j) = mul (w6_c (gam j)) w6_w.
Proof.
  rewrite (q6 j) at 1. rewrite (npow_add _ _ _ _ _ _ WR), (npow_mul _ _ _ _ _ _ WR), w_6, (npow_1 _ _ _ _ _ _ WR), (c_pow xi0). reflexivity.
Qed.
(** the map [a_0 + ... + a_5 w^5 |-> conj^j(a_0) + conj^j(a_1) g w + ... + conj^j(a_5) g^5 w^5] *)
Definition frob_with (j : nat) (g : X2) (a : w6) : w6 := let '(a0, a1, a2, a3, a4, a5) := a in
  let g2 := x2_mul g g in
  (cj j a0, x2_mul (cj j a1) g, x2_mul (cj j a2) g2, x2_mul (cj j a3) (x2_mul g g2), x2_mul (cj j a4) (x2_mul g2 g2), x2_mul (cj j a5) (x2_mul g (x2_mul g2 g2))).
Theorem w6_frob j a : pw a (q ^ N.of_nat j) = frob_with j (gam j) a.
Proof.
  destruct a as [[[[[a0 a1] a2] a3] a4] a5]. unfold frob_with. cbv zeta. match goal with |- _ = ?r => set (rhs := r) end. rewrite (w6_expand xi0).
  rewrite !(npow_frobenius _ _ _ _ _ _ WR m j _ _ Hm (char_q)), !(npow_base _ _ _ _ _ _ WR), !(npow_frobenius _ _ _ _ _ _ WR m j _ _ Hm (char_q)).
  rewrite !(npow_base _ _ _ _ _ _ WR), !(npow_frobenius _ _ _ _ _ _ WR m j _ _ Hm (char_q)), !(npow_base _ _ _ _ _ _ WR), !(npow_frobenius _ _ _ _ _ _ WR m j _ _ Hm (char_q)), !(npow_base _ _ _ _ _ _ WR), !(npow_frobenius _ _ _ _ _ _ WR m j _ _ Hm (char_q)), !(npow_base _ _ _ _ _ _ WR).
  rewrite !c_frob, w_frob. unfold rhs. clear rhs. set (g := gam j). clearbody g.
  rewrite (w6_expand xi0). rewrite <- !(c_mul xi0). ring.
Qed.

(** ** the sixth root of unity *)
Definition zeta : X2 := gam 2.
Lemma zeta_cj : cj 2 zeta = zeta. Proof. reflexivity. Qed.
Lemma frob_2 a : pw a (q ^ 2) = let '(a0, a1, a2, a3, a4, a5) := a in let g := zeta in let g2 := x2_mul g g in
  (a0, x2_mul a1 g, x2_mul a2 g2, x2_mul a3 (x2_mul g g2), x2_mul a4 (x2_mul g2 g2), x2_mul a5 (x2_mul g (x2_mul g2 g2))).
Proof. change 2%N with (N.of_nat 2). rewrite w6_frob. destruct a as [[[[[a0 a1] a2] a3] a4] a5]. reflexivity. Qed.
End Frob.
