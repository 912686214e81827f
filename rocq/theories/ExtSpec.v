(** Specification of the extension fields of halo2-ecc/src/fields/{fp2,fp12}.rs, independent of the code:
    [Fp2 = Fp[u] / (u^2 + 1)] and [Fp12 = Fp2[w] / (w^6 - (xi0 + u))], by polynomial arithmetic. *)
From Coq Require Import ZArith Znumtheory Lia List Bool Ring.
From Verif Require Import Field Spec Context Utils Logic Gate GateProofs Pocklington.
Import ListNotations.
Local Open Scope Z_scope.

Section X2.
Context {m : positive}.
Notation Fm := (F m).
Add Ring Fringm : (F_ring m) (morphism (F_morph m), constants [Fcst]).
(** [(a, b)] stands for [a + b u] with [u^2 = -1] *)
Definition x2 : Type := (Fm * Fm).
Definition x2_0 : x2 := (F0, F0).
Definition x2_1 : x2 := (F1, F0).
Definition x2_add (a b : x2) : x2 := ((fst a + fst b)%F, (snd a + snd b)%F).
Definition x2_sub (a b : x2) : x2 := ((fst a - fst b)%F, (snd a - snd b)%F).
Definition x2_opp (a : x2) : x2 := ((- fst a)%F, (- snd a)%F).
Definition x2_mul (a b : x2) : x2 := ((fst a * fst b - snd a * snd b)%F, (fst a * snd b + snd a * fst b)%F).
(** conjugation [a + b u |-> a - b u] *)
Definition x2_conj (a : x2) : x2 := (fst a, (- snd a)%F).
(** the inverse [conj(a) / (a0^2 + a1^2)], and 0 for 0 *)
Definition x2_norm (a : x2) : Fm := (fst a * fst a + snd a * snd a)%F.
Definition x2_inv (a : x2) : x2 := ((fst a * Finv (x2_norm a))%F, (- snd a * Finv (x2_norm a))%F).
Definition x2_is0 (a : x2) : bool := Fis0 (fst a) && Fis0 (snd a).

Lemma x2_ring : ring_theory x2_0 x2_1 x2_add x2_mul x2_sub x2_opp eq.
Proof.
  split; intros; unfold x2_add, x2_mul, x2_sub, x2_opp, x2_0, x2_1; destruct x; try destruct y; try destruct z; cbn [fst snd]; f_equal; ring.
Qed.
Lemma x2_conj_mul a b : x2_conj (x2_mul a b) = x2_mul (x2_conj a) (x2_conj b).
Proof. destruct a, b. unfold x2_conj, x2_mul; cbn [fst snd]. f_equal; ring. Qed.

Lemma sq_sum_zero (Hm : prime (Z.pos m)) (H3 : Z.pos m mod 4 = 3) (a b : Fm) : (a * a + b * b)%F = F0 -> a = F0 /\ b = F0.
Proof.
  intros E. 
  assert (K : forall a b : Fm, (a * a + b * b)%F = F0 -> a = F0).
  { clear a b E. intros a b E. destruct (Fis0 a) eqn:Ea; [now apply Fis0_true|].
    exfalso. assert (Na : a <> F0) by (intros ->; rewrite (proj2 (Fis0_true _ _) eq_refl) in Ea; discriminate).
    assert (Nb : b <> F0). { intros ->. apply Na. destruct (F_integral m Hm a a); auto. transitivity (a * a + F0 * F0)%F; [ring|auto]. }
    assert (Dn : forall x : Fm, x <> F0 -> ~ (Z.pos m | val x)).
    { intros x Hx [q Hq]. apply Hx. rewrite <- (of_Z_val m x), Hq. change F0 with (of_Z m 0). apply of_Z_eq_iff. now rewrite Z.mod_mul, Z.mod_0_l. }
    pose proof (fermat (Z.pos m) Hm (val a) (Dn a Na)) as FA. pose proof (fermat (Z.pos m) Hm (val b) (Dn b Nb)) as FB.
    set (M := Z.pos m) in *. set (s := (M - 3) / 4). assert (HM : M = 4 * s + 3) by (unfold s; pose proof (Z.div_mod M 4); pose proof (Z.mod_pos_bound (M - 3) 4); assert (M mod 4 = 3) by auto; pose proof (Z.div_mod (M - 3) 4); lia).
    pose proof (prime_ge_2 _ Hm). assert (Hs : 0 <= s) by lia.
    assert (E2 : (M | val a * val a + val b * val b)).
    { apply Z.mod_divide; [lia|]. apply (f_equal val) in E. rewrite <- (of_Z_val m a), <- (of_Z_val m b), <- !of_Z_mul, <- of_Z_add, val_of_Z in E. exact E. }
    (* a^(M-1) = (a^2)^(2s+1), so a^(M-1) + b^(M-1) is divisible by M *)
    assert (E3 : (M | val a ^ (M - 1) + val b ^ (M - 1))).
    { replace (M - 1) with (2 * (2 * s + 1)) by lia. rewrite !Z.pow_mul_r by lia. rewrite !Z.pow_2_r. set (x := val a * val a) in *. set (y := val b * val b) in *. clearbody x y. clear - E2 Hs.
      rewrite !Z.pow_add_r, !Z.pow_1_r, !Z.pow_mul_r by lia.
      assert (D : (M | (x ^ 2) ^ s - (y ^ 2) ^ s)). 
      { apply (cong_pow M (x ^ 2) (y ^ 2) s Hs). rewrite !Z.pow_2_r. replace (x * x - y * y) with ((x + y) * (x - y)) by ring. now apply Z.divide_mul_l. }
      replace ((x ^ 2) ^ s * x + (y ^ 2) ^ s * y) with ((x + y) * (x ^ 2) ^ s - ((x ^ 2) ^ s - (y ^ 2) ^ s) * y) by ring.
      apply Z.divide_sub_r; [now apply Z.divide_mul_l|now apply Z.divide_mul_l]. }
    assert (D2 : (M | 2)). { replace 2 with ((val a ^ (M - 1) + val b ^ (M - 1)) - (val a ^ (M - 1) - 1) - (val b ^ (M - 1) - 1)) by ring.
      apply Z.divide_sub_r; [apply Z.divide_sub_r|]; auto. }
    apply Z.divide_pos_le in D2; lia. }
  split; [now apply (K a b)|]. apply (K b a). rewrite <- E. ring.
Qed.
Theorem x2_inv_ok (Hm : prime (Z.pos m)) (H3 : Z.pos m mod 4 = 3) (a : x2) : a <> x2_0 -> x2_mul a (x2_inv a) = x2_1.
Proof.
  intros Ha. assert (N : x2_norm a <> F0). { intros E. apply Ha. destruct a. unfold x2_norm in E. cbn [fst snd] in E. now destruct (sq_sum_zero Hm H3 _ _ E) as [-> ->]. }
  pose proof (Finv_l _ _ Hm N) as E. unfold x2_mul, x2_inv, x2_1. cbn [fst snd]. f_equal; [|ring].
  rewrite <- E. unfold x2_norm. ring.
Qed.
Lemma x2_is0_eq a : x2_is0 a = true <-> a = x2_0.
Proof. destruct a. unfold x2_is0, x2_0. cbn [fst snd]. rewrite andb_true_iff, !Fis0_true. split; [intros [-> ->]; auto|intros E; inversion E; auto]. Qed.
End X2.
Arguments x2 : clear implicits.

Section X12.
Context {m : positive} (xi0 : Z).
Notation X2 := (x2 m).
Add Ring X2ring : (x2_ring (m:=m)).
(** [xi = xi0 + u], the value of [w^6] *)
Definition xi : X2 := (of_Z m xi0, F1).
(** polynomials in [w] over Fp2, constant coefficient first *)
Fixpoint padd (a b : list X2) : list X2 :=
  match a, b with [], b => b | a, [] => a | x :: a, y :: b => x2_add x y :: padd a b end.
Fixpoint pmul (a b : list X2) : list X2 :=
  match a with [] => [] | x :: a => padd (map (x2_mul x) b) (x2_0 :: pmul a b) end.
(** reduction of a polynomial of degree at most 11 by [w^6 = xi] *)
Definition pred6 (a : list X2) : list X2 := padd (firstn 6 a) (map (x2_mul xi) (skipn 6 a)).
(** multiplication in [Fp2[w]/(w^6 - xi)] of elements given by their 6 coefficients *)
Definition w_mul (a b : list X2) : list X2 := pred6 (pmul a b).
(** fp12.rs:24-25: the coordinates [(a_00, ..., a_50, a_01, ..., a_51)] stand for [sum_i (a_i0 + a_i1 u) w^i] *)
Definition w_of (v : list (F m)) : list X2 := combine (firstn 6 v) (skipn 6 v).
Definition w_to (a : list X2) : list (F m) := map fst a ++ map snd a.
Definition w_1 : list X2 := [x2_1; x2_0; x2_0; x2_0; x2_0; x2_0].
Definition x12_1 : list (F m) := w_to w_1.
(** multiplication on coordinate vectors *)
Definition x12_mul (a b : list (F m)) : list (F m) := w_to (w_mul (w_of a) (w_of b)).

(** ** The ring laws *)
Lemma len6 {A} (l : list A) : length l = 6%nat -> exists a0 a1 a2 a3 a4 a5, l = [a0; a1; a2; a3; a4; a5].
Proof. intros H. do 6 (destruct l as [|? l]; [discriminate|]). destruct l; [|discriminate]. eauto 8. Qed.
Lemma len12 {A} (l : list A) : length l = 12%nat -> exists a0 a1 a2 a3 a4 a5 b0 b1 b2 b3 b4 b5, l = [a0; a1; a2; a3; a4; a5; b0; b1; b2; b3; b4; b5].
Proof. intros H. do 12 (destruct l as [|? l]; [discriminate|]). destruct l; [|discriminate]. do 12 eexists. reflexivity. Qed.
Ltac unw := unfold w_mul, pred6, w_1; cbn [pmul padd map firstn skipn].
Ltac list_eq := repeat match goal with |- _ :: _ = _ :: _ => apply f_equal2 end; [..|reflexivity].
Lemma w_mul_length a b : length a = 6%nat -> length b = 6%nat -> length (w_mul a b) = 6%nat.
Proof. intros Ha Hb. apply len6 in Ha as (?&?&?&?&?&?&->), Hb as (?&?&?&?&?&?&->). reflexivity. Qed.
Lemma w_mul_comm a b : length a = 6%nat -> length b = 6%nat -> w_mul a b = w_mul b a.
Proof. intros Ha Hb. apply len6 in Ha as (?&?&?&?&?&?&->), Hb as (?&?&?&?&?&?&->). unw. list_eq; ring. Qed.
Lemma w_mul_assoc a b c : length a = 6%nat -> length b = 6%nat -> length c = 6%nat -> w_mul a (w_mul b c) = w_mul (w_mul a b) c.
Proof. intros Ha Hb Hc. apply len6 in Ha as (?&?&?&?&?&?&->), Hb as (?&?&?&?&?&?&->), Hc as (?&?&?&?&?&?&->). unw. list_eq; ring. Qed.
Lemma w_mul_1 a : length a = 6%nat -> w_mul a w_1 = a.
Proof. intros Ha. apply len6 in Ha as (?&?&?&?&?&?&->). unw. list_eq; ring. Qed.

Lemma w_of_length v : length v = 12%nat -> length (w_of v) = 6%nat.
Proof. intros H. apply len12 in H as (?&?&?&?&?&?&?&?&?&?&?&?&->). reflexivity. Qed.
Lemma w_to_length a : length (w_to a) = (2 * length a)%nat.
Proof. unfold w_to. rewrite app_length. rewrite !map_length. unfold x2. lia. Qed.
Lemma w_of_to a : length a = 6%nat -> w_of (w_to a) = a.
Proof. intros H. apply len6 in H as (x0&x1&x2'&x3&x4&x5&->). destruct x0, x1, x2', x3, x4, x5. reflexivity. Qed.
Lemma w_to_of v : length v = 12%nat -> w_to (w_of v) = v.
Proof. intros H. apply len12 in H as (?&?&?&?&?&?&?&?&?&?&?&?&->). reflexivity. Qed.
Lemma x12_mul_length a b : length a = 12%nat -> length b = 12%nat -> length (x12_mul a b) = 12%nat.
Proof. intros Ha Hb. unfold x12_mul. rewrite w_to_length, w_mul_length; auto using w_of_length. Qed.
Lemma x12_mul_comm a b : length a = 12%nat -> length b = 12%nat -> x12_mul a b = x12_mul b a.
Proof. intros Ha Hb. unfold x12_mul. rewrite w_mul_comm; auto using w_of_length. Qed.
Lemma x12_mul_assoc a b c : length a = 12%nat -> length b = 12%nat -> length c = 12%nat -> x12_mul a (x12_mul b c) = x12_mul (x12_mul a b) c.
Proof. intros Ha Hb Hc. unfold x12_mul. rewrite !w_of_to, w_mul_assoc; auto using w_of_length, w_mul_length. Qed.
Lemma x12_mul_1 a : length a = 12%nat -> x12_mul a x12_1 = a.
Proof. intros Ha. unfold x12_mul, x12_1. rewrite w_of_to by reflexivity. rewrite w_mul_1 by auto using w_of_length. now apply w_to_of. Qed.

(** ** The tower [Fq12 = Fq6[w]/(w^2 - v)], [Fq6 = Fq2[v]/(v^3 - xi)] used by halo2curves, and the coordinates fp12.rs:221-252 assigns to it *)
Definition x6 : Type := (X2 * X2 * X2).
Definition x6_add (a b : x6) : x6 := let '(a0, a1, a2) := a in let '(b0, b1, b2) := b in (x2_add a0 b0, x2_add a1 b1, x2_add a2 b2).
(** [(a0 + a1 v + a2 v^2)(b0 + b1 v + b2 v^2)] with [v^3 = xi] *)
Definition x6_mul (a b : x6) : x6 := let '(a0, a1, a2) := a in let '(b0, b1, b2) := b in
  (x2_add (x2_mul a0 b0) (x2_mul xi (x2_add (x2_mul a1 b2) (x2_mul a2 b1))),
   x2_add (x2_add (x2_mul a0 b1) (x2_mul a1 b0)) (x2_mul xi (x2_mul a2 b2)),
   x2_add (x2_add (x2_mul a0 b2) (x2_mul a1 b1)) (x2_mul a2 b0)).
Definition x6_mul_v (a : x6) : x6 := let '(a0, a1, a2) := a in (x2_mul xi a2, a0, a1).
Definition tower : Type := (x6 * x6).
(** [(a + b w)(c + d w)] with [w^2 = v] *)
Definition tower_mul (x y : tower) : tower :=
  (x6_add (x6_mul (fst x) (fst y)) (x6_mul_v (x6_mul (snd x) (snd y))), x6_add (x6_mul (fst x) (snd y)) (x6_mul (snd x) (fst y))).
(** fp12.rs:243-249 [coeffs] *)
Definition tower_coeffs (x : tower) : list (F m) :=
  let '((c00, c01, c02), (c10, c11, c12)) := x in
  [fst c00; fst c10; fst c01; fst c11; fst c02; fst c12; snd c00; snd c10; snd c01; snd c11; snd c02; snd c12].
(** fp12.rs:228-241 [new] *)
Definition tower_new (c : list (F m)) : option tower :=
  match c with
  | [c0; c1; c2; c3; c4; c5; c6; c7; c8; c9; c10; c11] => Some (((c0, c6), (c2, c8), (c4, c10)), ((c1, c7), (c3, c9), (c5, c11)))
  | _ => None
  end.
Lemma tower_new_coeffs x : tower_new (tower_coeffs x) = Some x.
Proof. destruct x as [[[[] []] []] [[[] []] []]]. reflexivity. Qed.
Lemma tower_coeffs_new c : length c = 12%nat -> exists x, tower_new c = Some x /\ tower_coeffs x = c.
Proof. intros H. apply len12 in H as (?&?&?&?&?&?&?&?&?&?&?&?&->). eexists. split; reflexivity. Qed.
Lemma tower_w x : w_of (tower_coeffs x) = let '((c00, c01, c02), (c10, c11, c12)) := x in [c00; c10; c01; c11; c02; c12].
Proof. destruct x as [[[[] []] []] [[[] []] []]]. reflexivity. Qed.
Theorem tower_mul_ok x y : tower_coeffs (tower_mul x y) = x12_mul (tower_coeffs x) (tower_coeffs y).
Proof.
  unfold x12_mul. rewrite <- (w_to_of (tower_coeffs (tower_mul x y))) by (destruct (tower_mul x y) as [[[[] []] []] [[[] []] []]]; reflexivity). f_equal. rewrite !tower_w.
  destruct x as [[[a0 a1] a2] [[b0 b1] b2]], y as [[[c0 c1] c2] [[d0 d1] d2]]. unfold tower_mul, x6_mul, x6_mul_v, x6_add. cbn [fst snd]. unw. list_eq; ring.
Qed.
End X12.

(** ** Scaling by an element of Fp2, and the automorphism [w |-> -w] (conjugation over Fp6 = Fp2[w^2]) *)
Section X12b.
Context {m : positive} (xi0 : Z).
Notation X2 := (x2 m).
Add Ring X2ringb : (x2_ring (m:=m)).
Definition x12_scale (u : list (F m)) (y : X2) : list (F m) := w_to (map (fun x => x2_mul x y) (w_of u)).
Fixpoint alt (neg : bool) (a : list X2) : list X2 :=
  match a with [] => [] | x :: a => (if neg then x2_opp x else x) :: alt (negb neg) a end.
Definition x12_conj (u : list (F m)) : list (F m) := w_to (alt false (w_of u)).
Lemma alt_length b a : length (alt b a) = length a. Proof. revert b; induction a; intros b; cbn [alt length]; auto. Qed.
Lemma x12_scale_length u y : length u = 12%nat -> length (x12_scale u y) = 12%nat.
Proof. intros H. unfold x12_scale. rewrite w_to_length, map_length, w_of_length; auto. Qed.
Lemma x12_conj_length u : length u = 12%nat -> length (x12_conj u) = 12%nat.
Proof. intros H. unfold x12_conj. rewrite w_to_length, alt_length, w_of_length; auto. Qed.
Ltac list_eqb := repeat match goal with |- _ :: _ = _ :: _ => apply f_equal2 end; [..|reflexivity].
Theorem alt_mul a b : length a = 6%nat -> length b = 6%nat -> alt false (w_mul xi0 a b) = w_mul xi0 (alt false a) (alt false b).
Proof.
  intros Ha Hb. apply len6 in Ha as (?&?&?&?&?&?&->), Hb as (?&?&?&?&?&?&->). unfold w_mul, pred6. cbn [pmul padd map firstn skipn alt negb]. list_eqb; ring.
Qed.
(** conjugation is multiplicative and an involution *)
Theorem x12_conj_mul u v : length u = 12%nat -> length v = 12%nat -> x12_conj (x12_mul xi0 u v) = x12_mul xi0 (x12_conj u) (x12_conj v).
Proof.
  intros Hu Hv. unfold x12_conj, x12_mul. rewrite !w_of_to, alt_mul; auto using w_of_length; try (rewrite alt_length; auto using w_of_length). apply w_mul_length; auto using w_of_length.
Qed.
Theorem x12_conj_conj u : length u = 12%nat -> x12_conj (x12_conj u) = u.
Proof.
  intros Hu. unfold x12_conj. rewrite w_of_to by (rewrite alt_length; now apply w_of_length). rewrite <- (w_to_of u) at 2 by auto. f_equal.
  pose proof (w_of_length u Hu) as H. apply len6 in H as (?&?&?&?&?&?&->). cbn [alt negb]. list_eqb; ring.
Qed.
(** scaling by [y] is multiplication by the constant polynomial [y] *)
Theorem x12_scale_mul u y : length u = 12%nat -> x12_scale u y = x12_mul xi0 u (w_to [y; x2_0; x2_0; x2_0; x2_0; x2_0]).
Proof.
  intros Hu. unfold x12_scale, x12_mul. f_equal. rewrite w_of_to by reflexivity.
  pose proof (w_of_length u Hu) as H. apply len6 in H as (?&?&?&?&?&?&->). unfold w_mul, pred6. cbn [pmul padd map firstn skipn]. list_eqb; ring.
Qed.
End X12b.
