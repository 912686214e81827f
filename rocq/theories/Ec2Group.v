(** The group of points of a short Weierstrass curve [y^2 = x^3 + b] over [Fp2] (the twist of BN254), defined by the textbook chord-and-tangent rule, with a
    proof that it is an abelian group: EcGroup.v with [F m] replaced by [Fp2]. This is specification, not a model of the code. *)
From Coq Require Import ZArith Znumtheory Lia List Bool Ring.
From Verif Require Import Field Spec GateProofs Pocklington ExtSpec RingPow CycSpec FrobSpec Cyclo.
Import ListNotations.

Declare Scope x2c_scope.
Delimit Scope x2c_scope with XC.
Local Notation "a * b" := (x2_mul a b) : x2c_scope.
Local Notation "a + b" := (x2_add a b) : x2c_scope.
Local Notation "a - b" := (x2_sub a b) : x2c_scope.
Local Notation "- a" := (x2_opp a) : x2c_scope.
Local Open Scope x2c_scope.

Section Curve2.
Context (m : positive) (Hm : prime (Z.pos m)) (Hm3 : (3 < Z.pos m)%Z) (H3 : (Z.pos m mod 4 = 3)%Z) (b : x2 m) (Hb : b <> x2_0).
Notation X2 := (x2 m).
Add Ring X2ringg : (x2_ring (m:=m)).
Local Notation two := (x2_1 (m:=m) + x2_1).
Local Notation three := (x2_1 (m:=m) + x2_1 + x2_1).
Definition x2_eqb (x y : X2) : bool := x2_is0 (x - y).
Lemma x2_eqb_eq x y : x2_eqb x y = true <-> x = y.
Proof. unfold x2_eqb. rewrite x2_is0_eq. split; [intros E; transitivity (x - y + y); [ring|rewrite E; ring]|intros ->; ring]. Qed.
Lemma x2_eqb_neq x y : x2_eqb x y = false <-> x <> y.
Proof. rewrite <- x2_eqb_eq. destruct (x2_eqb x y); split; congruence. Qed.
Lemma x2_dec (x y : X2) : {x = y} + {x <> y}.
Proof. destruct (x2_eqb x y) eqn:E; [left; now apply x2_eqb_eq|right; now apply x2_eqb_neq]. Qed.
Lemma x2_inv_l (x : X2) : x <> x2_0 -> x2_inv x * x = x2_1.
Proof. intros N. rewrite <- (x2_inv_ok Hm H3 x N). ring. Qed.
(** a point: infinity or affine coordinates *)
Definition tpt : Type := option (X2 * X2).
Definition tonc2 (x y : X2) : Prop := y * y = x * x * x + b.
Definition tonc (P : tpt) : Prop := match P with None => True | Some (x, y) => tonc2 x y end.
Definition tneg (P : tpt) : tpt := match P with None => None | Some (x, y) => Some (x, - y) end.
(** the third intersection of the line of slope [s] through (x1, y1) and (x2, y2), reflected *)
Definition tline3 (s x1 y1 x2 : X2) : X2 * X2 := let x3 := s * s - x1 - x2 in (x3, s * (x1 - x3) - y1).
Definition tchord (x1 y1 x2 y2 : X2) : X2 := (y2 - y1) * x2_inv (x2 - x1).
Definition ttangent (x y : X2) : X2 := three * x * x * x2_inv (two * y).
Definition tadd (P Q : tpt) : tpt :=
  match P, Q with
  | None, _ => Q
  | _, None => P
  | Some (x1, y1), Some (x2, y2) =>
      if x2_eqb x1 x2 then (if x2_eqb y1 (- y2) then None else Some (tline3 (ttangent x1 y1) x1 y1 x1))
      else Some (tline3 (tchord x1 y1 x2 y2) x1 y1 x2)
  end.
Fixpoint tmul (k : nat) (P : tpt) : tpt := match k with O => None | S k => tadd P (tmul k P) end.

(** ** basic facts about the field *)
Lemma of_Z2_nz z : (0 < z < Z.pos m)%Z -> (of_Z m z, F0) <> (x2_0 : X2).
Proof. intros Hz E. apply (f_equal (fun a : X2 => val (fst a))) in E. unfold x2_0 in E. cbn [fst] in E. rewrite val_of_Z_small, (val_0 m) in E by lia. lia. Qed.
Lemma two_nz : two <> x2_0.
Proof. replace two with ((of_Z m 2, F0) : X2); [apply of_Z2_nz; lia|]. unfold x2_add, x2_1. cbn [fst snd]. apply f_equal2; [|now rewrite !(Radd_0_l (F_ring m))]. change 2%Z with (1 + 1)%Z. rewrite of_Z_add. reflexivity. Qed.
Lemma three_nz : three <> x2_0.
Proof. replace three with ((of_Z m 3, F0) : X2); [apply of_Z2_nz; lia|]. unfold x2_add, x2_1. cbn [fst snd]. apply f_equal2; [|now rewrite !(Radd_0_l (F_ring m))]. change 3%Z with (1 + 1 + 1)%Z. rewrite !of_Z_add. reflexivity. Qed.
Lemma mul_nz (x y : X2) : x <> x2_0 -> y <> x2_0 -> x * y <> x2_0.
Proof. intros Hx Hy E. apply (x2_integral Hm H3 _ _) in E. tauto. Qed.
Lemma mul_cancel (c x y : X2) : c <> x2_0 -> c * x = c * y -> x = y.
Proof.
  intros Hc E. assert (E' : c * (x - y) = x2_0) by (transitivity (c * x - c * y); [ring|rewrite E; ring]).
  apply (x2_integral Hm H3 _ _) in E'. destruct E' as [|E']; [contradiction|]. transitivity (x - y + y); [ring|rewrite E'; ring].
Qed.
Lemma mul_zero_r (c x : X2) : c <> x2_0 -> c * x = x2_0 -> x = x2_0.
Proof. intros Hc E. apply (mul_cancel c); auto. rewrite E. ring. Qed.
Lemma sub_zero (x y : X2) : x - y = x2_0 -> x = y.
Proof. intros E. transitivity (x - y + y); [ring|rewrite E; ring]. Qed.
Lemma sub_nz (x y : X2) : x <> y -> x - y <> x2_0.
Proof. intros H E. apply H. now apply sub_zero. Qed.
Lemma opp_eq_zero (y : X2) : y = - y -> y = x2_0.
Proof. intros E. apply (mul_zero_r (two)); [apply two_nz|]. transitivity (y - - y); [ring|rewrite <- E; ring]. Qed.

(** ** the slope relation covers tchord and ttangent *)
Definition slope (x1 y1 x2 y2 s : X2) : Prop := y2 - y1 = s * (x2 - x1) /\ s * (y1 + y2) = x1 * x1 + x1 * x2 + x2 * x2.

Lemma slope_unique x1 y1 x2 y2 s s' : ~ (x1 = x2 /\ y1 = - y2) -> slope x1 y1 x2 y2 s -> slope x1 y1 x2 y2 s' -> s = s'.
Proof.
  intros Hn [A B] [A' B']. destruct (x2_dec x1 x2) as [E|E].
  - assert (N : y1 + y2 <> x2_0). { intros E'. apply Hn. split; auto. transitivity (y1 + y2 - y2); [ring|rewrite E'; ring]. }
    apply (mul_cancel (y1 + y2)); auto. transitivity (s * (y1 + y2)); [ring|]. rewrite B, <- B'. ring.
  - assert (N : x2 - x1 <> x2_0) by (apply sub_nz; auto). apply (mul_cancel (x2 - x1)); auto. transitivity (s * (x2 - x1)); [ring|]. rewrite <- A, A'. ring.
Qed.
(** two affine points with the same abscissa are equal or opposite *)
Lemma same_x x y y' : tonc2 x y -> tonc2 x y' -> y = y' \/ y = - y'.
Proof.
  unfold tonc2. intros A B. assert (E : (y - y') * (y + y') = x2_0). { transitivity (y * y - y' * y'); [ring|]. rewrite A, B. ring. }
  apply (x2_integral Hm H3 _ _) in E. destruct E as [E|E]; [left; now apply sub_zero|right]. transitivity (y + y' - y'); [ring|rewrite E; ring].
Qed.
Lemma slope_chord x1 y1 x2 y2 : tonc2 x1 y1 -> tonc2 x2 y2 -> x1 <> x2 -> slope x1 y1 x2 y2 (tchord x1 y1 x2 y2).
Proof.
  intros A B Hx. assert (N : x2 - x1 <> x2_0) by (apply sub_nz; auto).
  assert (E : y2 - y1 = tchord x1 y1 x2 y2 * (x2 - x1)).
  { unfold tchord. transitivity ((y2 - y1) * (x2_inv (x2 - x1) * (x2 - x1))); [|ring]. rewrite (x2_inv_l _ N). ring. }
  split; auto. set (s := tchord x1 y1 x2 y2) in *. apply (mul_cancel (x2 - x1)); auto.
  transitivity ((s * (x2 - x1)) * (y1 + y2)); [ring|]. rewrite <- E. transitivity (y2 * y2 - y1 * y1); [ring|]. unfold tonc2 in *. rewrite A, B. ring.
Qed.
Lemma slope_tangent x y : y <> x2_0 -> slope x y x y (ttangent x y).
Proof.
  intros Hy. assert (N : two * y <> x2_0) by (apply mul_nz; [apply two_nz|auto]). split; [ring|]. unfold ttangent.
  transitivity (three * x * x * (x2_inv (two * y) * (two * y))); [ring|]. rewrite (x2_inv_l _ N). ring.
Qed.
(** the affine case of [tadd], through the slope relation *)
Lemma tadd_slope x1 y1 x2 y2 s : tonc2 x1 y1 -> tonc2 x2 y2 -> ~ (x1 = x2 /\ y1 = - y2) -> slope x1 y1 x2 y2 s ->
  tadd (Some (x1, y1)) (Some (x2, y2)) = Some (tline3 s x1 y1 x2).
Proof.
  intros A B Hn Hs. unfold tadd. destruct (x2_eqb x1 x2) eqn:E.
  - apply x2_eqb_eq in E. subst x2. destruct (x2_eqb y1 (- y2)) eqn:E2; [apply x2_eqb_eq in E2; tauto|].
    assert (y1 = y2) by (destruct (same_x _ _ _ A B); tauto). subst y2.
    assert (Hy : y1 <> x2_0). { intros ->. apply Hn. split; auto; try ring. }
    rewrite (slope_unique x1 y1 x1 y1 s (ttangent x1 y1)); auto. now apply slope_tangent.
  - apply x2_eqb_neq in E. rewrite (slope_unique x1 y1 x2 y2 s (tchord x1 y1 x2 y2)); auto. now apply slope_chord.
Qed.
Lemma slope_exists x1 y1 x2 y2 : tonc2 x1 y1 -> tonc2 x2 y2 -> ~ (x1 = x2 /\ y1 = - y2) -> exists s, slope x1 y1 x2 y2 s.
Proof.
  intros A B Hn. destruct (x2_dec x1 x2) as [->|E]; [|eauto using slope_chord].
  assert (y1 = y2) by (destruct (same_x _ _ _ A B); tauto). subst y2. exists (ttangent x2 y1). apply slope_tangent. intros ->. apply Hn. split; auto; try ring.
Qed.
Lemma slope_sym x1 y1 x2 y2 s : slope x1 y1 x2 y2 s -> slope x2 y2 x1 y1 s.
Proof. intros [A B]. split. - transitivity (- (y2 - y1)); [ring|]. rewrite A. ring. - transitivity (s * (y1 + y2)); [ring|]. rewrite B. ring. Qed.
Lemma tline3_sym x1 y1 x2 y2 s : slope x1 y1 x2 y2 s -> tline3 s x1 y1 x2 = tline3 s x2 y2 x1.
Proof. intros [A B]. unfold tline3. assert (E : y2 = y1 + s * (x2 - x1)) by (rewrite <- A; ring). rewrite E. f_equal; ring. Qed.
Lemma tline3_onc x1 y1 x2 y2 s : tonc2 x1 y1 -> slope x1 y1 x2 y2 s -> tonc2 (fst (tline3 s x1 y1 x2)) (snd (tline3 s x1 y1 x2)).
Proof.
  unfold tonc2, tline3. cbn [fst snd]. intros A [B C]. assert (E : y2 = y1 + s * (x2 - x1)) by (rewrite <- B; ring). rewrite E in C. clear E B.
  set (x3 := s * s - x1 - x2). assert (D : b = y1 * y1 - x1 * x1 * x1) by (rewrite A; ring). rewrite D. clear D.
  (* (s(x1-x3)-y1)^2 - x3^3 - y1^2 + x1^3 = (x1-x3) * (...) *)
  assert (G : s * (y1 + (y1 + s * (x2 - x1))) - (x1 * x1 + x1 * x2 + x2 * x2) = x2_0) by (rewrite C; ring).
  transitivity (x3 * x3 * x3 + (y1 * y1 - x1 * x1 * x1) - (x1 - x3) * (s * (y1 + (y1 + s * (x2 - x1))) - (x1 * x1 + x1 * x2 + x2 * x2))).
  - unfold x3. ring.
  - rewrite G. ring.
Qed.
Lemma tadd_onc P Q : tonc P -> tonc Q -> tonc (tadd P Q).
Proof.
  destruct P as [[x1 y1]|], Q as [[x2 y2]|]; cbn [tonc]; auto. intros A B.
  destruct (x2_eqb x1 x2 && x2_eqb y1 (- y2)) eqn:E.
  - apply andb_true_iff in E as [E1 E2]. unfold tadd. now rewrite E1, E2.
  - assert (Hn : ~ (x1 = x2 /\ y1 = - y2)). { intros [-> ->]. rewrite !(proj2 (x2_eqb_eq _ _)) in E; auto. discriminate. }
    destruct (slope_exists x1 y1 x2 y2 A B Hn) as [s Hs]. rewrite (tadd_slope x1 y1 x2 y2 s); auto.
    pose proof (tline3_onc x1 y1 x2 y2 s A Hs) as G. now destruct (tline3 s x1 y1 x2).
Qed.
Lemma tneg_onc P : tonc P -> tonc (tneg P).
Proof. destruct P as [[x y]|]; auto. cbn. unfold tonc2. intros <-. ring. Qed.
Lemma tneg_neg P : tneg (tneg P) = P.
Proof. destruct P as [[x y]|]; auto. cbn. do 2 f_equal. ring. Qed.
Lemma tadd_neg_r P : tadd P (tneg P) = None.
Proof. destruct P as [[x y]|]; auto. cbn. rewrite (proj2 (x2_eqb_eq x x)) by auto. rewrite (proj2 (x2_eqb_eq y (- - y))); auto. ring. Qed.
Lemma tadd_neg_l P : tadd (tneg P) P = None.
Proof. rewrite <- (tneg_neg P) at 2. apply tadd_neg_r. Qed.
Lemma opp_cases (x1 y1 x2 y2 : X2) : (x1 = x2 /\ y1 = - y2) \/ ~ (x1 = x2 /\ y1 = - y2).
Proof. destruct (x2_dec x1 x2), (x2_dec y1 (- y2)); tauto. Qed.
Lemma tadd_comm P Q : tonc P -> tonc Q -> tadd P Q = tadd Q P.
Proof.
  destruct P as [[x1 y1]|], Q as [[x2 y2]|]; auto. cbn [tonc]. intros A B.
  destruct (opp_cases x1 y1 x2 y2) as [[-> ->]|Hn].
  - change (Some (x2, - y2)) with (tneg (Some (x2, y2))). rewrite tadd_neg_r. rewrite <- (tneg_neg (Some (x2, y2))) at 2. now rewrite tadd_neg_r.
  - destruct (slope_exists x1 y1 x2 y2 A B Hn) as [s Hs].
    rewrite (tadd_slope x1 y1 x2 y2 s), (tadd_slope x2 y2 x1 y1 s); auto using slope_sym.
    + now rewrite (tline3_sym x1 y1 x2 y2).
    + intros [-> ->]. apply Hn. split; auto; try ring.
Qed.
Lemma tadd_none P Q : tonc P -> tonc Q -> tadd P Q = None -> Q = tneg P.
Proof.
  destruct P as [[x1 y1]|], Q as [[x2 y2]|]; cbn [tonc tneg]; try discriminate; auto. intros A B. unfold tadd.
  destruct (x2_eqb x1 x2) eqn:E1; [|discriminate]. destruct (x2_eqb y1 (- y2)) eqn:E2; [|discriminate]. intros _.
  apply x2_eqb_eq in E1, E2. subst. do 2 f_equal. ring.
Qed.
(** cancellation: P + (-P + Q) = Q *)
Lemma tadd_cancel P Q : tonc P -> tonc Q -> tadd P (tadd (tneg P) Q) = Q.
Proof.
  destruct P as [[x1 y1]|], Q as [[x2 y2]|]; cbn [tonc tneg]; auto; intros A B.
  2:{ change (Some (x1, - y1)) with (tneg (Some (x1, y1))). now rewrite tadd_neg_r. }
  assert (A' : tonc2 x1 (- y1)) by (unfold tonc2 in *; rewrite <- A; ring).
  destruct (opp_cases x1 (- y1) x2 y2) as [[-> E]|Hn].
  - assert (y1 = y2) by (transitivity (- - y1); [ring|rewrite E; ring]). subst y2.
    change (Some (x2, - y1)) with (tneg (Some (x2, y1))). now rewrite tadd_neg_l.
  - destruct (slope_exists _ _ _ _ A' B Hn) as [s Hs]. rewrite (tadd_slope _ _ _ _ s); auto.
    pose proof (tline3_onc _ _ _ _ _ A' Hs) as C. unfold tline3 in *. cbn [fst snd] in C. destruct Hs as [S1 S2].
    assert (E : y2 = - y1 + s * (x2 - x1)) by (rewrite <- S1; ring). rewrite E in S2.
    set (x3 := s * s - x1 - x2) in *. set (y3 := s * (x1 - x3) - - y1) in *.
    assert (SL : slope x1 y1 x3 y3 (- s)).
    { split; [unfold y3; ring|].
      assert (G : s * (- y1 + (- y1 + s * (x2 - x1))) - (x1 * x1 + x1 * x2 + x2 * x2) = x2_0) by (rewrite S2; ring).
      transitivity (x1 * x1 + x1 * x3 + x3 * x3 + (s * (- y1 + (- y1 + s * (x2 - x1))) - (x1 * x1 + x1 * x2 + x2 * x2))); [unfold y3, x3; ring|rewrite G; ring]. }
    rewrite (tadd_slope _ _ _ _ (- s)); auto.
    + unfold tline3. assert (X : - s * - s - x1 - x3 = x2) by (unfold x3; ring). rewrite X. do 2 f_equal. rewrite E. ring.
    + intros [X Y].
      (* P would be a 2-torsion point on the ttangent at it *)
      assert (Y0 : y1 = x2_0). { apply opp_eq_zero. rewrite Y at 1. unfold y3. rewrite <- X. ring. }
      rewrite Y0 in S2, A. assert (Q0 : s * s = x1 + x1 + x2). { transitivity (x3 + x1 + x2); [unfold x3; ring|rewrite <- X; ring]. }
      assert (Z1 : three * (x1 * x1) = x2_0).
      { transitivity ((x1 * x1 + x1 * x2 + x2 * x2) - (x1 + x1 + x2) * (x2 - x1)); [ring|]. rewrite <- S2, <- Q0. ring. }
      apply mul_zero_r in Z1; [|apply three_nz]. assert (X0 : x1 = x2_0) by (apply (x2_integral Hm H3 _ _) in Z1; tauto). rewrite X0 in A.
      apply Hb. unfold tonc2 in A. transitivity (x2_0 * x2_0 * x2_0 + b - x2_0 * x2_0 * (x2_0 : X2)); [ring|]. rewrite <- A. ring.
Qed.
Lemma tadd_cancel' P Q : tonc P -> tonc Q -> tadd (tneg P) (tadd P Q) = Q.
Proof. intros A B. rewrite <- (tneg_neg P) at 2. apply tadd_cancel; auto using tneg_onc. Qed.
Lemma tadd_0_r P : tadd P None = P. Proof. destruct P as [[x y]|]; reflexivity. Qed.

(** ** the main case of associativity *)
Lemma assoc_affine x1 y1 x2 y2 x3 y3 l g x4 y4 x5 y5 : tonc2 x1 y1 -> tonc2 x2 y2 -> tonc2 x3 y3 ->
  slope x1 y1 x2 y2 l -> slope x2 y2 x3 y3 g -> tline3 l x1 y1 x2 = (x4, y4) -> tline3 g x2 y2 x3 = (x5, y5) ->
  ~ (x4 = x3 /\ y4 = - y3) -> ~ (x1 = x5 /\ y1 = - y5) -> ~ (x1 = x3 /\ y1 = y3) ->
  tadd (Some (x4, y4)) (Some (x3, y3)) = tadd (Some (x1, y1)) (Some (x5, y5)).
Proof.
  intros A B C S1 S2 L1 L2 N4 N5 NE.
  assert (C4 : tonc2 x4 y4) by (pose proof (tline3_onc _ _ _ _ _ A S1) as G; now rewrite L1 in G).
  assert (C5 : tonc2 x5 y5) by (pose proof (tline3_onc _ _ _ _ _ B S2) as G; now rewrite L2 in G).
  destruct S1 as [S1 E1]. destruct S2 as [S2 E3]. unfold tline3 in L1, L2. injection L1 as X4 Y4. injection L2 as X5 Y5. rewrite X4 in Y4. rewrite X5 in Y5.
  assert (EY1 : y1 = y2 - l * (x2 - x1)) by (rewrite <- S1; ring). assert (EY3 : y3 = y2 + g * (x3 - x2)) by (rewrite <- S2; ring).
  set (D4 := l * l - x1 - x2 - x3). set (D5 := x1 + x2 + x3 - g * g). set (T := (l + g) * (x2 - x3) - two * y2).
  assert (E1' : l * (two * y2 - l * (x2 - x1)) - (x1 * x1 + x1 * x2 + x2 * x2) = x2_0) by (rewrite <- E1, EY1; ring).
  assert (E3' : g * (two * y2 + g * (x3 - x2)) - (x2 * x2 + x2 * x3 + x3 * x3) = x2_0) by (rewrite <- E3, EY3; ring).
  assert (KT : (l - g) * T = D4 * (x1 - x3)).
  { transitivity (D4 * (x1 - x3) + ((g * (two * y2 + g * (x3 - x2)) - (x2 * x2 + x2 * x3 + x3 * x3)) - (l * (two * y2 - l * (x2 - x1)) - (x1 * x1 + x1 * x2 + x2 * x2)))).
    - unfold D4, T. ring.
    - rewrite E1', E3'. ring. }
  destruct (x2_dec l g) as [Elg|Nlg].
  - (* the three points are on one line *) exfalso. subst g. 
    assert (Z0 : D4 * (x1 - x3) = x2_0) by (rewrite <- KT; ring). apply (x2_integral Hm H3 _ _) in Z0. destruct Z0 as [Z0|Z0].
    + apply N4. assert (x4 = x3). { rewrite <- X4. apply sub_zero. exact Z0. } split; auto. rewrite <- Y4, H, EY3, EY1. ring.
    + apply sub_zero in Z0. apply NE. split; auto. rewrite EY1, EY3, Z0. ring.
  - assert (Nd : l - g <> x2_0) by (apply sub_nz; auto). set (u := (x1 - x3) * x2_inv (l - g)).
    assert (Hu : u * (l - g) = x1 - x3). { unfold u. transitivity ((x1 - x3) * (x2_inv (l - g) * (l - g))); [ring|]. rewrite (x2_inv_l _ Nd). ring. }
    assert (ET : T = u * D4). { apply (mul_cancel (l - g)); auto. rewrite KT, <- Hu. ring. }
    assert (EX1 : x1 = x3 + u * (l - g)) by (rewrite Hu; ring).
    assert (EY2 : two * y2 = (l + g) * (x2 - x3) - u * D4) by (rewrite <- ET; unfold T; ring).
    assert (SA : slope x4 y4 x3 y3 (u - l)).
    { split.
      - transitivity ((u - l) * (x3 - x4) + (T - u * D4) * (- x2_1)); [|rewrite ET; ring]. rewrite <- Y4, <- X4, EY3, EY1. unfold D4, T. ring.
      - assert (Y43 : y4 + y3 = two * y2 + two * (g * (x3 - x2)) - (u - l) * (x3 - x4)).
        { transitivity (two * y3 - (y3 - y4)); [ring|]. replace (y3 - y4) with ((u - l) * (x3 - x4)).
          - rewrite EY3. ring.
          - symmetry. transitivity ((u - l) * (x3 - x4) + (T - u * D4) * (- x2_1)); [|rewrite ET; ring]. rewrite <- Y4, <- X4, EY3, EY1. unfold D4, T. ring. }
        rewrite Y43. transitivity (x4 * x4 + x4 * x3 + x3 * x3 + (l * (two * y2 - l * (x2 - x1)) - (x1 * x1 + x1 * x2 + x2 * x2))); [|rewrite E1'; ring].
        rewrite <- X4, EY2. unfold D4. rewrite EX1. ring. }
    assert (SB : slope x1 y1 x5 y5 (u - g)).
    { assert (S0 : y5 - y1 = (u - g) * (x5 - x1)).
      { transitivity ((u - g) * (x5 - x1) + (two * y2 - ((l + g) * (x2 - x3) - u * D4)) * (- x2_1)); [|rewrite EY2; ring].
        rewrite <- Y5, <- X5, EY1. unfold D4. rewrite EX1. ring. }
      split; auto.
      assert (Y15 : y1 + y5 = two * y2 - two * (l * (x2 - x1)) + (u - g) * (x5 - x1)).
      { transitivity (two * y1 + (y5 - y1)); [ring|]. rewrite S0, EY1. ring. }
      rewrite Y15. transitivity (x1 * x1 + x1 * x5 + x5 * x5 + (l * (two * y2 - l * (x2 - x1)) - (x1 * x1 + x1 * x2 + x2 * x2))); [|rewrite E1'; ring].
      rewrite <- X5, EY2. unfold D4. rewrite EX1. ring. }
    rewrite (tadd_slope _ _ _ _ _ C4 C N4 SA), (tadd_slope _ _ _ _ _ A C5 N5 SB). unfold tline3.
    assert (EX : (u - l) * (u - l) - x4 - x3 = (u - g) * (u - g) - x1 - x5).
    { rewrite <- X4, <- X5, EX1. ring. }
    rewrite EX. do 2 f_equal. rewrite <- Y4.
    transitivity ((u - g) * (x1 - ((u - g) * (u - g) - x1 - x5)) - y1 + (two * y2 - ((l + g) * (x2 - x3) - u * D4))); [|rewrite EY2; ring].
    rewrite EY1, <- X4, <- X5. unfold D4. rewrite EX1. ring.
Qed.
Theorem tadd_assoc P Q R : tonc P -> tonc Q -> tonc R -> tadd (tadd P Q) R = tadd P (tadd Q R).
Proof.
  intros A B C. pose proof (tadd_onc P Q A B) as AB. pose proof (tadd_onc Q R B C) as BC.
  (* degenerate cases by cancellation *)
  destruct (tadd P Q) as [[x4 y4]|] eqn:E4.
  2:{ apply tadd_none in E4; auto. subst Q. rewrite tadd_cancel; auto. }
  destruct (tadd Q R) as [[x5 y5]|] eqn:E5.
  2:{ apply tadd_none in E5; auto. subst R. rewrite tadd_0_r, <- E4. rewrite (tadd_comm (tadd P Q)), (tadd_comm P Q); auto using tneg_onc, tadd_onc. now apply tadd_cancel'. }
  destruct P as [[x1 y1]|]. 2:{ cbn in E4. rewrite <- E5, <- E4. reflexivity. }
  destruct R as [[x3 y3]|]. 2:{ rewrite tadd_0_r in E5. rewrite <- E5, E4. apply tadd_0_r. }
  destruct Q as [[x2 y2]|]. 2:{ cbn in E5. rewrite tadd_0_r in E4. congruence. }
  destruct (opp_cases x4 y4 x3 y3) as [[-> ->]|N4].
  { (* P + Q = -R *)
    change (Some (x3, - y3)) with (tneg (Some (x3, y3))) in *. rewrite (tadd_comm (tneg _)), tadd_neg_r; auto using tneg_onc.
    assert (EQ : Some (x2, y2) = tadd (tneg (Some (x1, y1))) (tneg (Some (x3, y3)))) by (rewrite <- E4; symmetry; now apply tadd_cancel').
    rewrite <- E5, EQ. rewrite (tadd_comm _ (Some (x3, y3))), (tadd_comm (tneg (Some (x1, y1)))); auto using tneg_onc, tadd_onc.
    rewrite tadd_cancel; auto using tneg_onc. now rewrite tadd_neg_r. }
  destruct (opp_cases x1 y1 x5 y5) as [[-> ->]|N5].
  { change (Some (x5, - y5)) with (tneg (Some (x5, y5))) in *. rewrite (tadd_comm (tneg _)), tadd_neg_r; auto using tneg_onc.
    assert (EQ : Some (x2, y2) = tadd (tneg (Some (x3, y3))) (Some (x5, y5))).
    { rewrite <- E5. rewrite (tadd_comm (Some (x2, y2))); auto. symmetry. now apply tadd_cancel'. }
    rewrite <- E4, EQ. rewrite (tadd_comm (tneg (Some (x5, y5)))), (tadd_comm (tneg (Some (x3, y3)))); auto using tneg_onc, tadd_onc.
    assert (G : forall X Y, tonc X -> tonc Y -> tadd (tadd X Y) (tneg X) = Y) by (intros; rewrite tadd_comm, tadd_cancel'; auto using tneg_onc, tadd_onc).
    rewrite G; auto using tneg_onc. rewrite tadd_comm, tadd_neg_r; auto using tneg_onc. }
  assert (NE : (x1 = x3 /\ y1 = y3) \/ ~ (x1 = x3 /\ y1 = y3)) by (destruct (x2_dec x1 x3), (x2_dec y1 y3); tauto).
  destruct NE as [[<- <-]|NE].
  { rewrite <- E4, <- E5, (tadd_comm (Some (x2, y2))); auto. apply tadd_comm; auto. rewrite E4. auto. }
  assert (M1 : ~ (x1 = x2 /\ y1 = - y2)) by (intros [-> ->]; change (Some (x2, - y2)) with (tneg (Some (x2, y2))) in E4; rewrite tadd_neg_l in E4; discriminate).
  assert (M2 : ~ (x2 = x3 /\ y2 = - y3)) by (intros [-> ->]; change (Some (x3, - y3)) with (tneg (Some (x3, y3))) in E5; rewrite tadd_neg_l in E5; discriminate).
  destruct (slope_exists _ _ _ _ A B M1) as [l Sl]. destruct (slope_exists _ _ _ _ B C M2) as [g Sg].
  rewrite (tadd_slope _ _ _ _ l) in E4 by auto. rewrite (tadd_slope _ _ _ _ g) in E5 by auto.
  apply (assoc_affine x1 y1 x2 y2 x3 y3 l g); auto; congruence.
Qed.

(** ** multiples *)
Lemma tmul_onc k P : tonc P -> tonc (tmul k P).
Proof. intros A. induction k; [exact I|]. apply tadd_onc; auto. Qed.
Lemma tmul_add j k P : tonc P -> tmul (j + k) P = tadd (tmul j P) (tmul k P).
Proof. intros A. induction j as [|j IH]; [reflexivity|]. cbn [tmul Nat.add]. rewrite IH, tadd_assoc; auto using tmul_onc. Qed.
End Curve2.
