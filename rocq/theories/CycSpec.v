(** Fp12 as a commutative ring on coefficient tuples, the Frobenius power maps in it, and the cyclotomic subgroup: the mathematics behind
    halo2-ecc/src/bn254/final_exp.rs, independent of the code. *)
From Coq Require Import ZArith NArith Znumtheory Lia List Bool Ring.
From Verif Require Import Field Spec Context Utils Logic Gate GateProofs Pocklington ExtSpec ExtSpec2 RingPow.
Import ListNotations.
Local Open Scope Z_scope.

Section W6.
Context {m : positive} (xi0 : Z).
Notation X2 := (x2 m).
Notation xi := (xi (m:=m) xi0).
Add Ring X2ringd : (x2_ring (m:=m)).
Local Notation "a * b" := (x2_mul a b).
Local Notation "a + b" := (x2_add a b).
Definition w6 : Type := (X2 * X2 * X2 * X2 * X2 * X2)%type.
Definition w6_c (x : X2) : w6 := (x, x2_0, x2_0, x2_0, x2_0, x2_0).
Definition w6_0 : w6 := w6_c x2_0.
Definition w6_1 : w6 := w6_c x2_1.
Definition w6_w : w6 := (x2_0, x2_1, x2_0, x2_0, x2_0, x2_0).
Definition w6_add (a b : w6) : w6 := let '(a0, a1, a2, a3, a4, a5) := a in let '(b0, b1, b2, b3, b4, b5) := b in
  (a0 + b0, a1 + b1, a2 + b2, a3 + b3, a4 + b4, a5 + b5).
Definition w6_opp (a : w6) : w6 := let '(a0, a1, a2, a3, a4, a5) := a in (x2_opp a0, x2_opp a1, x2_opp a2, x2_opp a3, x2_opp a4, x2_opp a5).
Definition w6_sub (a b : w6) : w6 := w6_add a (w6_opp b).
Definition w6_mul (a b : w6) : w6 := let '(a0, a1, a2, a3, a4, a5) := a in let '(b0, b1, b2, b3, b4, b5) := b in
  (a0 * b0 + xi * (a1 * b5 + a2 * b4 + a3 * b3 + a4 * b2 + a5 * b1),
   a0 * b1 + a1 * b0 + xi * (a2 * b5 + a3 * b4 + a4 * b3 + a5 * b2),
   a0 * b2 + a1 * b1 + a2 * b0 + xi * (a3 * b5 + a4 * b4 + a5 * b3),
   a0 * b3 + a1 * b2 + a2 * b1 + a3 * b0 + xi * (a4 * b5 + a5 * b4),
   a0 * b4 + a1 * b3 + a2 * b2 + a3 * b1 + a4 * b0 + xi * (a5 * b5),
   a0 * b5 + a1 * b4 + a2 * b3 + a3 * b2 + a4 * b1 + a5 * b0).
Ltac tuple := repeat match goal with |- (_, _) = (_, _) => apply f_equal2 end.
Lemma w6_ring : ring_theory w6_0 w6_1 w6_add w6_mul w6_sub w6_opp eq.
Proof.
  split; intros; repeat match goal with x : w6 |- _ => destruct x as [[[[[? ?] ?] ?] ?] ?] end;
    unfold w6_add, w6_mul, w6_sub, w6_opp, w6_0, w6_1, w6_c, w6_add; tuple; ring.
Qed.
(** the coordinate vector of fp12.rs:24-25 *)
Definition w6_list (a : w6) : list X2 := let '(a0, a1, a2, a3, a4, a5) := a in [a0; a1; a2; a3; a4; a5].
Definition enc (a : w6) : list (F m) := w_to (w6_list a).
Definition dec (u : list (F m)) : w6 :=
  match w_of u with [a0; a1; a2; a3; a4; a5] => (a0, a1, a2, a3, a4, a5) | _ => w6_0 end.
Lemma enc_len a : length (enc a) = 12%nat. Proof. destruct a as [[[[[? ?] ?] ?] ?] ?]. reflexivity. Qed.
Lemma w6_list_len a : length (w6_list a) = 6%nat. Proof. destruct a as [[[[[? ?] ?] ?] ?] ?]. reflexivity. Qed.
Lemma dec_enc a : dec (enc a) = a.
Proof. unfold dec, enc. rewrite w_of_to by apply w6_list_len. destruct a as [[[[[? ?] ?] ?] ?] ?]. reflexivity. Qed.
Lemma enc_dec u : length u = 12%nat -> enc (dec u) = u.
Proof. intros H. apply len12 in H as (?&?&?&?&?&?&?&?&?&?&?&?&->). reflexivity. Qed.
Lemma enc_inj a b : enc a = enc b -> a = b. Proof. intros H. rewrite <- (dec_enc a), <- (dec_enc b). now rewrite H. Qed.
Lemma enc_mul a b : x12_mul xi0 (enc a) (enc b) = enc (w6_mul a b).
Proof.
  unfold x12_mul, enc. rewrite !w_of_to by apply w6_list_len. f_equal.
  destruct a as [[[[[a0 a1] a2] a3] a4] a5], b as [[[[[b0 b1] b2] b3] b4] b5]. unfold w6_mul, w6_list, w_mul, pred6. cbn [pmul padd map firstn skipn].
  repeat match goal with |- _ :: _ = _ :: _ => apply f_equal2 end; try reflexivity; ring.
Qed.
Lemma enc_1 : enc w6_1 = x12_1. Proof. reflexivity. Qed.
Lemma enc_conj a : x12_conj (enc a) = enc (let '(a0, a1, a2, a3, a4, a5) := a in (a0, x2_opp a1, a2, x2_opp a3, a4, x2_opp a5)).
Proof. destruct a as [[[[[[] []] []] []] []] []]. reflexivity. Qed.

(** ** Embeddings *)
Definition iF (x : F m) : w6 := w6_c (x, F0).
Definition w6_u : w6 := w6_c (F0, F1).
Add Ring W6ring : w6_ring.
Add Ring Fringm : (F_ring m) (morphism (F_morph m), constants [Fcst]).
Lemma c_mul x y : w6_mul (w6_c x) (w6_c y) = w6_c (x * y). Proof. unfold w6_c, w6_mul. tuple; ring. Qed.
Lemma c_add x y : w6_add (w6_c x) (w6_c y) = w6_c (x + y). Proof. unfold w6_c, w6_add. tuple; ring. Qed.
Lemma c_opp x : w6_opp (w6_c x) = w6_c (x2_opp x). Proof. unfold w6_c, w6_opp. tuple; ring. Qed.
Lemma c_split x : w6_c x = w6_add (iF (fst x)) (w6_mul (iF (snd x)) w6_u).
Proof. unfold iF, w6_u. rewrite c_mul, c_add. f_equal. destruct x. unfold x2_add, x2_mul. cbn [fst snd]. f_equal; ring. Qed.
Notation pw := (npow w6_1 w6_mul).
Notation p2 := (npow (x2_1 (m:=m)) x2_mul).
Lemma c_pow x e : pw (w6_c x) e = w6_c (p2 x e).
Proof.
  induction e as [|e IH] using N.peano_ind; [reflexivity|]. rewrite !(npow_succ w6_1 w6_mul), (npow_succ x2_1 x2_mul), IH. apply c_mul.
Qed.
(** [x = a0 + a1 w + ... + a5 w^5] *)
Lemma w6_expand a0 a1 a2 a3 a4 a5 : (a0, a1, a2, a3, a4, a5) = 
  w6_add (w6_c a0) (w6_mul w6_w (w6_add (w6_c a1) (w6_mul w6_w (w6_add (w6_c a2) (w6_mul w6_w (w6_add (w6_c a3) (w6_mul w6_w (w6_add (w6_c a4) (w6_mul w6_w (w6_c a5)))))))))).
Proof. unfold w6_w, w6_c, w6_mul, w6_add. tuple; ring. Qed.
Lemma w_6 : pw w6_w 6 = w6_c xi.
Proof. change 6%N with (3 * 2)%N. rewrite (npow_mul _ _ _ _ _ _ w6_ring). change 3%N with (N.succ 2). rewrite (npow_2 _ _ _ _ _ _ w6_ring), (npow_succ w6_1 w6_mul), (npow_2 _ _ _ _ _ _ w6_ring).
  unfold w6_w, w6_mul, w6_c. tuple; ring. Qed.

(** ** Characteristic *)
Lemma char_F k (x : F m) : nmul F0 Fadd k x = (of_Z m (Z.of_nat k) * x)%F.
Proof. induction k as [|k IH]; cbn [nmul]; [change (of_Z m (Z.of_nat 0)) with (F0 : F m); ring|]. rewrite IH, Nat2Z.inj_succ. unfold Z.succ. rewrite of_Z_add. change (of_Z m 1) with (F1 : F m). ring. Qed.
Lemma char_x2 k (x : X2) : nmul x2_0 x2_add k x = (nmul F0 Fadd k (fst x), nmul F0 Fadd k (snd x)).
Proof. induction k as [|k IH]; cbn [nmul]; [reflexivity|]. rewrite IH. reflexivity. Qed.
Lemma char_w6 k (x : w6) : nmul w6_0 w6_add k x =
  let '(a0, a1, a2, a3, a4, a5) := x in let f := nmul x2_0 x2_add k in (f a0, f a1, f a2, f a3, f a4, f a5).
Proof. destruct x as [[[[[? ?] ?] ?] ?] ?]. induction k as [|k IH]; cbn [nmul]; [reflexivity|]. rewrite IH. reflexivity. Qed.
Lemma char_q (x : w6) : nmul w6_0 w6_add (Pos.to_nat m) x = w6_0.
Proof.
  assert (E : forall y : F m, nmul F0 Fadd (Pos.to_nat m) y = F0).
  { intros y. rewrite char_F, positive_nat_Z. replace (of_Z m (Z.pos m)) with (F0 : F m); [ring|]. change F0 with (of_Z m 0). apply of_Z_eq_iff. rewrite Z_mod_same_full. apply Z.mod_0_l. discriminate. }
  rewrite char_w6. destruct x as [[[[[? ?] ?] ?] ?] ?]. cbv zeta. rewrite !char_x2, !E. reflexivity.
Qed.
End W6.
