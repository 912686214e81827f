(** The group of points of a short Weierstrass curve [y^2 = x^3 + b] over [F m] ([a4 = 0], the only case halo2-ecc supports, ecc/mod.rs:25),
    defined by the textbook chord-and-tangent rule, with a proof that it is an abelian group. This is specification, not a model of the code. *)
From Coq Require Import ZArith Znumtheory Lia List Bool Ring Field.
From Verif Require Import Field Spec GateProofs.
Import ListNotations.
Local Open Scope F_scope.

Section Curve.
Context (m : positive) (Hm : prime (Z.pos m)) (H3 : (3 < Z.pos m)%Z) (b : F m) (Hb : b <> F0).
Notation Fm := (F m).
Add Field Ff : (F_field m Hm) (morphism (F_morph m), constants [Fcst]).

(** a point: infinity or affine coordinates *)
Definition pt : Type := option (Fm * Fm).
Definition onc2 (x y : Fm) : Prop := y * y = x * x * x + b.
Definition onc (P : pt) : Prop := match P with None => True | Some (x, y) => onc2 x y end.
Definition eneg (P : pt) : pt := match P with None => None | Some (x, y) => Some (x, - y) end.
(** the third intersection of the line of slope [s] through (x1, y1) and (x2, y2), reflected *)
Definition line3 (s x1 y1 x2 : Fm) : Fm * Fm := let x3 := s * s - x1 - x2 in (x3, s * (x1 - x3) - y1).
Definition chord (x1 y1 x2 y2 : Fm) : Fm := (y2 - y1) * Finv (x2 - x1).
Definition tangent (x y : Fm) : Fm := of_Z m 3 * x * x * Finv (of_Z m 2 * y).
Definition eadd (P Q : pt) : pt :=
  match P, Q with
  | None, _ => Q
  | _, None => P
  | Some (x1, y1), Some (x2, y2) =>
      if Feqb x1 x2 then (if Feqb y1 (- y2) then None else Some (line3 (tangent x1 y1) x1 y1 x1))
      else Some (line3 (chord x1 y1 x2 y2) x1 y1 x2)
  end.
Fixpoint emul (k : nat) (P : pt) : pt := match k with O => None | S k => eadd P (emul k P) end.

(** ** basic facts about the field *)
Lemma of_Z_nz z : (0 < z < Z.pos m)%Z -> of_Z m z <> F0.
Proof. intros Hz E. apply (f_equal val) in E. rewrite val_of_Z_small, (val_0 m) in E by lia. lia. Qed.
Lemma two_nz : of_Z m 2 <> F0. Proof. apply of_Z_nz. lia. Qed.
Lemma three_nz : of_Z m 3 <> F0. Proof. apply of_Z_nz. lia. Qed.
Lemma mul_nz (x y : Fm) : x <> F0 -> y <> F0 -> x * y <> F0.
Proof. intros Hx Hy E. apply (F_integral m Hm) in E. tauto. Qed.
Lemma mul_cancel (c x y : Fm) : c <> F0 -> c * x = c * y -> x = y.
Proof.
  intros Hc E. assert (E' : c * (x - y) = F0) by (transitivity (c * x - c * y); [ring|rewrite E; ring]).
  apply (F_integral m Hm) in E'. destruct E' as [|E']; [contradiction|]. transitivity (x - y + y); [ring|rewrite E'; ring].
Qed.
Lemma mul_zero_r (c x : Fm) : c <> F0 -> c * x = F0 -> x = F0.
Proof. intros Hc E. apply (mul_cancel c); auto. rewrite E. ring. Qed.
Lemma sub_zero (x y : Fm) : x - y = F0 -> x = y.
Proof. intros E. transitivity (x - y + y); [ring|rewrite E; ring]. Qed.
Lemma sub_nz (x y : Fm) : x <> y -> x - y <> F0.
Proof. intros H E. apply H. now apply sub_zero. Qed.
Lemma opp_eq_zero (y : Fm) : y = - y -> y = F0.
Proof. intros E. apply (mul_zero_r (of_Z m 2)); [apply two_nz|]. transitivity (y - - y); [ring|rewrite <- E; ring]. Qed.

(** ** the slope relation covers chord and tangent *)
Definition slope (x1 y1 x2 y2 s : Fm) : Prop := y2 - y1 = s * (x2 - x1) /\ s * (y1 + y2) = x1 * x1 + x1 * x2 + x2 * x2.

Lemma slope_unique x1 y1 x2 y2 s s' : ~ (x1 = x2 /\ y1 = - y2) -> slope x1 y1 x2 y2 s -> slope x1 y1 x2 y2 s' -> s = s'.
Proof.
  intros Hn [A B] [A' B']. destruct (F_dec _ x1 x2) as [E|E].
  - assert (N : y1 + y2 <> F0). { intros E'. apply Hn. split; auto. transitivity (y1 + y2 - y2); [ring|rewrite E'; ring]. }
    apply (mul_cancel (y1 + y2)); auto. transitivity (s * (y1 + y2)); [ring|]. rewrite B, <- B'. ring.
  - assert (N : x2 - x1 <> F0) by (apply sub_nz; auto). apply (mul_cancel (x2 - x1)); auto. transitivity (s * (x2 - x1)); [ring|]. rewrite <- A, A'. ring.
Qed.
(** two affine points with the same abscissa are equal or opposite *)
Lemma same_x x y y' : onc2 x y -> onc2 x y' -> y = y' \/ y = - y'.
Proof.
  unfold onc2. intros A B. assert (E : (y - y') * (y + y') = F0). { transitivity (y * y - y' * y'); [ring|]. rewrite A, B. ring. }
  apply (F_integral m Hm) in E. destruct E as [E|E]; [left; now apply sub_zero|right]. transitivity (y + y' - y'); [ring|rewrite E; ring].
Qed.
Lemma slope_chord x1 y1 x2 y2 : onc2 x1 y1 -> onc2 x2 y2 -> x1 <> x2 -> slope x1 y1 x2 y2 (chord x1 y1 x2 y2).
Proof.
  intros A B Hx. assert (N : x2 - x1 <> F0) by (apply sub_nz; auto).
  assert (E : y2 - y1 = chord x1 y1 x2 y2 * (x2 - x1)).
  { unfold chord. transitivity ((y2 - y1) * (Finv (x2 - x1) * (x2 - x1))); [|ring]. rewrite (Finv_l _ _ Hm N). ring. }
  split; auto. set (s := chord x1 y1 x2 y2) in *. apply (mul_cancel (x2 - x1)); auto.
  transitivity ((s * (x2 - x1)) * (y1 + y2)); [ring|]. rewrite <- E. transitivity (y2 * y2 - y1 * y1); [ring|]. unfold onc2 in *. rewrite A, B. ring.
Qed.
Lemma slope_tangent x y : y <> F0 -> slope x y x y (tangent x y).
Proof.
  intros Hy. assert (N : of_Z m 2 * y <> F0) by (apply mul_nz; [apply two_nz|auto]). split; [ring|]. unfold tangent.
  transitivity (of_Z m 3 * x * x * (Finv (of_Z m 2 * y) * (of_Z m 2 * y))); [ring|]. rewrite (Finv_l _ _ Hm N). ring.
Qed.
(** the affine case of [eadd], through the slope relation *)
Lemma eadd_slope x1 y1 x2 y2 s : onc2 x1 y1 -> onc2 x2 y2 -> ~ (x1 = x2 /\ y1 = - y2) -> slope x1 y1 x2 y2 s ->
  eadd (Some (x1, y1)) (Some (x2, y2)) = Some (line3 s x1 y1 x2).
Proof.
  intros A B Hn Hs. unfold eadd. destruct (Feqb x1 x2) eqn:E.
  - apply Feqb_eq in E. subst x2. destruct (Feqb y1 (- y2)) eqn:E2; [apply Feqb_eq in E2; tauto|].
    assert (y1 = y2) by (destruct (same_x _ _ _ A B); tauto). subst y2.
    assert (Hy : y1 <> F0). { intros ->. apply Hn. split; auto; try ring. }
    rewrite (slope_unique x1 y1 x1 y1 s (tangent x1 y1)); auto. now apply slope_tangent.
  - apply Feqb_neq in E. rewrite (slope_unique x1 y1 x2 y2 s (chord x1 y1 x2 y2)); auto. now apply slope_chord.
Qed.
Lemma slope_exists x1 y1 x2 y2 : onc2 x1 y1 -> onc2 x2 y2 -> ~ (x1 = x2 /\ y1 = - y2) -> exists s, slope x1 y1 x2 y2 s.
Proof.
  intros A B Hn. destruct (F_dec _ x1 x2) as [->|E]; [|eauto using slope_chord].
  assert (y1 = y2) by (destruct (same_x _ _ _ A B); tauto). subst y2. exists (tangent x2 y1). apply slope_tangent. intros ->. apply Hn. split; auto; try ring.
Qed.
Lemma slope_sym x1 y1 x2 y2 s : slope x1 y1 x2 y2 s -> slope x2 y2 x1 y1 s.
Proof. intros [A B]. split. - transitivity (- (y2 - y1)); [ring|]. rewrite A. ring. - transitivity (s * (y1 + y2)); [ring|]. rewrite B. ring. Qed.
Lemma line3_sym x1 y1 x2 y2 s : slope x1 y1 x2 y2 s -> line3 s x1 y1 x2 = line3 s x2 y2 x1.
Proof. intros [A B]. unfold line3. assert (E : y2 = y1 + s * (x2 - x1)) by (rewrite <- A; ring). rewrite E. f_equal; ring. Qed.
Lemma line3_onc x1 y1 x2 y2 s : onc2 x1 y1 -> slope x1 y1 x2 y2 s -> onc2 (fst (line3 s x1 y1 x2)) (snd (line3 s x1 y1 x2)).
Proof.
  unfold onc2, line3. cbn [fst snd]. intros A [B C]. assert (E : y2 = y1 + s * (x2 - x1)) by (rewrite <- B; ring). rewrite E in C. clear E B.
  set (x3 := s * s - x1 - x2). assert (D : b = y1 * y1 - x1 * x1 * x1) by (rewrite A; ring). rewrite D. clear D.
  (* (s(x1-x3)-y1)^2 - x3^3 - y1^2 + x1^3 = (x1-x3) * (...) *)
  assert (G : s * (y1 + (y1 + s * (x2 - x1))) - (x1 * x1 + x1 * x2 + x2 * x2) = F0) by (rewrite C; ring).
  transitivity (x3 * x3 * x3 + (y1 * y1 - x1 * x1 * x1) - (x1 - x3) * (s * (y1 + (y1 + s * (x2 - x1))) - (x1 * x1 + x1 * x2 + x2 * x2))).
  - unfold x3. ring.
  - rewrite G. ring.
Qed.
Lemma eadd_onc P Q : onc P -> onc Q -> onc (eadd P Q).
Proof.
  destruct P as [[x1 y1]|], Q as [[x2 y2]|]; cbn [onc]; auto. intros A B.
  destruct (Feqb x1 x2 && Feqb y1 (- y2)) eqn:E.
  - apply andb_true_iff in E as [E1 E2]. unfold eadd. now rewrite E1, E2.
  - assert (Hn : ~ (x1 = x2 /\ y1 = - y2)). { intros [-> ->]. rewrite !(proj2 (Feqb_eq _ _ _)) in E; auto. discriminate. }
    destruct (slope_exists x1 y1 x2 y2 A B Hn) as [s Hs]. rewrite (eadd_slope x1 y1 x2 y2 s); auto.
    pose proof (line3_onc x1 y1 x2 y2 s A Hs) as G. now destruct (line3 s x1 y1 x2).
Qed.
Lemma eneg_onc P : onc P -> onc (eneg P).
Proof. destruct P as [[x y]|]; auto. cbn. unfold onc2. intros <-. ring. Qed.
Lemma eneg_neg P : eneg (eneg P) = P.
Proof. destruct P as [[x y]|]; auto. cbn. do 2 f_equal. ring. Qed.
Lemma eadd_neg_r P : eadd P (eneg P) = None.
Proof. destruct P as [[x y]|]; auto. cbn. rewrite (proj2 (Feqb_eq _ x x)) by auto. rewrite (proj2 (Feqb_eq _ y (- - y))); auto. ring. Qed.
Lemma eadd_neg_l P : eadd (eneg P) P = None.
Proof. rewrite <- (eneg_neg P) at 2. apply eadd_neg_r. Qed.
Lemma opp_cases (x1 y1 x2 y2 : Fm) : (x1 = x2 /\ y1 = - y2) \/ ~ (x1 = x2 /\ y1 = - y2).
Proof. destruct (F_dec _ x1 x2), (F_dec _ y1 (- y2)); tauto. Qed.
Lemma eadd_comm P Q : onc P -> onc Q -> eadd P Q = eadd Q P.
Proof.
  destruct P as [[x1 y1]|], Q as [[x2 y2]|]; auto. cbn [onc]. intros A B.
  destruct (opp_cases x1 y1 x2 y2) as [[-> ->]|Hn].
  - change (Some (x2, - y2)) with (eneg (Some (x2, y2))). rewrite eadd_neg_r. rewrite <- (eneg_neg (Some (x2, y2))) at 2. now rewrite eadd_neg_r.
  - destruct (slope_exists x1 y1 x2 y2 A B Hn) as [s Hs].
    rewrite (eadd_slope x1 y1 x2 y2 s), (eadd_slope x2 y2 x1 y1 s); auto using slope_sym.
    + now rewrite (line3_sym x1 y1 x2 y2).
    + intros [-> ->]. apply Hn. split; auto; try ring.
Qed.
Lemma eadd_none P Q : onc P -> onc Q -> eadd P Q = None -> Q = eneg P.
Proof.
  destruct P as [[x1 y1]|], Q as [[x2 y2]|]; cbn [onc eneg]; try discriminate; auto. intros A B. unfold eadd.
  destruct (Feqb x1 x2) eqn:E1; [|discriminate]. destruct (Feqb y1 (- y2)) eqn:E2; [|discriminate]. intros _.
  apply Feqb_eq in E1, E2. subst. do 2 f_equal. ring.
Qed.
(** cancellation: P + (-P + Q) = Q *)
Lemma eadd_cancel P Q : onc P -> onc Q -> eadd P (eadd (eneg P) Q) = Q.
Proof.
  destruct P as [[x1 y1]|], Q as [[x2 y2]|]; cbn [onc eneg]; auto; intros A B.
  2:{ change (Some (x1, - y1)) with (eneg (Some (x1, y1))). now rewrite eadd_neg_r. }
  assert (A' : onc2 x1 (- y1)) by (unfold onc2 in *; rewrite <- A; ring).
  destruct (opp_cases x1 (- y1) x2 y2) as [[-> E]|Hn].
  - assert (y1 = y2) by (transitivity (- - y1); [ring|rewrite E; ring]). subst y2.
    change (Some (x2, - y1)) with (eneg (Some (x2, y1))). now rewrite eadd_neg_l.
  - destruct (slope_exists _ _ _ _ A' B Hn) as [s Hs]. rewrite (eadd_slope _ _ _ _ s); auto.
    pose proof (line3_onc _ _ _ _ _ A' Hs) as C. unfold line3 in *. cbn [fst snd] in C. destruct Hs as [S1 S2].
    assert (E : y2 = - y1 + s * (x2 - x1)) by (rewrite <- S1; ring). rewrite E in S2.
    set (x3 := s * s - x1 - x2) in *. set (y3 := s * (x1 - x3) - - y1) in *.
    assert (SL : slope x1 y1 x3 y3 (- s)).
    { split; [unfold y3; ring|].
      assert (G : s * (- y1 + (- y1 + s * (x2 - x1))) - (x1 * x1 + x1 * x2 + x2 * x2) = F0) by (rewrite S2; ring).
      transitivity (x1 * x1 + x1 * x3 + x3 * x3 + (s * (- y1 + (- y1 + s * (x2 - x1))) - (x1 * x1 + x1 * x2 + x2 * x2))); [unfold y3, x3; ring|rewrite G; ring]. }
    rewrite (eadd_slope _ _ _ _ (- s)); auto.
    + unfold line3. assert (X : - s * - s - x1 - x3 = x2) by (unfold x3; ring). rewrite X. do 2 f_equal. rewrite E. ring.
    + intros [X Y].
      (* P would be a 2-torsion point on the tangent at it *)
      assert (Y0 : y1 = F0). { apply opp_eq_zero. rewrite Y at 1. unfold y3. rewrite <- X. ring. }
      rewrite Y0 in S2, A. assert (Q0 : s * s = x1 + x1 + x2). { transitivity (x3 + x1 + x2); [unfold x3; ring|rewrite <- X; ring]. }
      assert (Z1 : of_Z m 3 * (x1 * x1) = F0).
      { transitivity ((x1 * x1 + x1 * x2 + x2 * x2) - (x1 + x1 + x2) * (x2 - x1)); [ring|]. rewrite <- S2, <- Q0. ring. }
      apply mul_zero_r in Z1; [|apply three_nz]. assert (X0 : x1 = F0) by (apply (F_integral m Hm) in Z1; tauto). rewrite X0 in A.
      apply Hb. unfold onc2 in A. transitivity (F0 * F0 * F0 + b - F0 * F0 * (F0 : Fm)); [ring|]. rewrite <- A. ring.
Qed.
Lemma eadd_cancel' P Q : onc P -> onc Q -> eadd (eneg P) (eadd P Q) = Q.
Proof. intros A B. rewrite <- (eneg_neg P) at 2. apply eadd_cancel; auto using eneg_onc. Qed.
Lemma eadd_0_r P : eadd P None = P. Proof. destruct P as [[x y]|]; reflexivity. Qed.

(** ** the main case of associativity *)
Lemma assoc_affine x1 y1 x2 y2 x3 y3 l g x4 y4 x5 y5 : onc2 x1 y1 -> onc2 x2 y2 -> onc2 x3 y3 ->
  slope x1 y1 x2 y2 l -> slope x2 y2 x3 y3 g -> line3 l x1 y1 x2 = (x4, y4) -> line3 g x2 y2 x3 = (x5, y5) ->
  ~ (x4 = x3 /\ y4 = - y3) -> ~ (x1 = x5 /\ y1 = - y5) -> ~ (x1 = x3 /\ y1 = y3) ->
  eadd (Some (x4, y4)) (Some (x3, y3)) = eadd (Some (x1, y1)) (Some (x5, y5)).
Proof.
  intros A B C S1 S2 L1 L2 N4 N5 NE.
  assert (C4 : onc2 x4 y4) by (pose proof (line3_onc _ _ _ _ _ A S1) as G; now rewrite L1 in G).
  assert (C5 : onc2 x5 y5) by (pose proof (line3_onc _ _ _ _ _ B S2) as G; now rewrite L2 in G).
  destruct S1 as [S1 E1]. destruct S2 as [S2 E3]. unfold line3 in L1, L2. injection L1 as X4 Y4. injection L2 as X5 Y5. rewrite X4 in Y4. rewrite X5 in Y5.
  assert (EY1 : y1 = y2 - l * (x2 - x1)) by (rewrite <- S1; ring). assert (EY3 : y3 = y2 + g * (x3 - x2)) by (rewrite <- S2; ring).
  set (D4 := l * l - x1 - x2 - x3). set (D5 := x1 + x2 + x3 - g * g). set (T := (l + g) * (x2 - x3) - of_Z m 2 * y2).
  assert (E1' : l * (of_Z m 2 * y2 - l * (x2 - x1)) - (x1 * x1 + x1 * x2 + x2 * x2) = F0) by (rewrite <- E1, EY1; ring).
  assert (E3' : g * (of_Z m 2 * y2 + g * (x3 - x2)) - (x2 * x2 + x2 * x3 + x3 * x3) = F0) by (rewrite <- E3, EY3; ring).
  assert (KT : (l - g) * T = D4 * (x1 - x3)).
  { transitivity (D4 * (x1 - x3) + ((g * (of_Z m 2 * y2 + g * (x3 - x2)) - (x2 * x2 + x2 * x3 + x3 * x3)) - (l * (of_Z m 2 * y2 - l * (x2 - x1)) - (x1 * x1 + x1 * x2 + x2 * x2)))).
    - unfold D4, T. ring.
    - rewrite E1', E3'. ring. }
  destruct (F_dec _ l g) as [Elg|Nlg].
  - (* the three points are on one line *) exfalso. subst g. 
    assert (Z0 : D4 * (x1 - x3) = F0) by (rewrite <- KT; ring). apply (F_integral m Hm) in Z0. destruct Z0 as [Z0|Z0].
    + apply N4. assert (x4 = x3). { rewrite <- X4. apply sub_zero. exact Z0. } split; auto. rewrite <- Y4, H, EY3, EY1. ring.
    + apply sub_zero in Z0. apply NE. split; auto. rewrite EY1, EY3, Z0. ring.
  - assert (Nd : l - g <> F0) by (apply sub_nz; auto). set (u := (x1 - x3) * Finv (l - g)).
    assert (Hu : u * (l - g) = x1 - x3). { unfold u. transitivity ((x1 - x3) * (Finv (l - g) * (l - g))); [ring|]. rewrite (Finv_l _ _ Hm Nd). ring. }
    assert (ET : T = u * D4). { apply (mul_cancel (l - g)); auto. rewrite KT, <- Hu. ring. }
    assert (EX1 : x1 = x3 + u * (l - g)) by (rewrite Hu; ring).
    assert (EY2 : of_Z m 2 * y2 = (l + g) * (x2 - x3) - u * D4) by (rewrite <- ET; unfold T; ring).
    assert (SA : slope x4 y4 x3 y3 (u - l)).
    { split.
      - transitivity ((u - l) * (x3 - x4) + (T - u * D4) * (- F1)); [|rewrite ET; ring]. rewrite <- Y4, <- X4, EY3, EY1. unfold D4, T. ring.
      - assert (Y43 : y4 + y3 = of_Z m 2 * y2 + of_Z m 2 * (g * (x3 - x2)) - (u - l) * (x3 - x4)).
        { transitivity (of_Z m 2 * y3 - (y3 - y4)); [ring|]. replace (y3 - y4) with ((u - l) * (x3 - x4)).
          - rewrite EY3. ring.
          - symmetry. transitivity ((u - l) * (x3 - x4) + (T - u * D4) * (- F1)); [|rewrite ET; ring]. rewrite <- Y4, <- X4, EY3, EY1. unfold D4, T. ring. }
        rewrite Y43. transitivity (x4 * x4 + x4 * x3 + x3 * x3 + (l * (of_Z m 2 * y2 - l * (x2 - x1)) - (x1 * x1 + x1 * x2 + x2 * x2))); [|rewrite E1'; ring].
        rewrite <- X4, EY2. unfold D4. rewrite EX1. ring. }
    assert (SB : slope x1 y1 x5 y5 (u - g)).
    { assert (S0 : y5 - y1 = (u - g) * (x5 - x1)).
      { transitivity ((u - g) * (x5 - x1) + (of_Z m 2 * y2 - ((l + g) * (x2 - x3) - u * D4)) * (- F1)); [|rewrite EY2; ring].
        rewrite <- Y5, <- X5, EY1. unfold D4. rewrite EX1. ring. }
      split; auto.
      assert (Y15 : y1 + y5 = of_Z m 2 * y2 - of_Z m 2 * (l * (x2 - x1)) + (u - g) * (x5 - x1)).
      { transitivity (of_Z m 2 * y1 + (y5 - y1)); [ring|]. rewrite S0, EY1. ring. }
      rewrite Y15. transitivity (x1 * x1 + x1 * x5 + x5 * x5 + (l * (of_Z m 2 * y2 - l * (x2 - x1)) - (x1 * x1 + x1 * x2 + x2 * x2))); [|rewrite E1'; ring].
      rewrite <- X5, EY2. unfold D4. rewrite EX1. ring. }
    rewrite (eadd_slope _ _ _ _ _ C4 C N4 SA), (eadd_slope _ _ _ _ _ A C5 N5 SB). unfold line3.
    assert (EX : (u - l) * (u - l) - x4 - x3 = (u - g) * (u - g) - x1 - x5).
    { rewrite <- X4, <- X5, EX1. ring. }
    rewrite EX. do 2 f_equal. rewrite <- Y4.
    transitivity ((u - g) * (x1 - ((u - g) * (u - g) - x1 - x5)) - y1 + (of_Z m 2 * y2 - ((l + g) * (x2 - x3) - u * D4))); [|rewrite EY2; ring].
    rewrite EY1, <- X4, <- X5. unfold D4. rewrite EX1. ring.
Qed.
Theorem eadd_assoc P Q R : onc P -> onc Q -> onc R -> eadd (eadd P Q) R = eadd P (eadd Q R).
Proof.
  intros A B C. pose proof (eadd_onc P Q A B) as AB. pose proof (eadd_onc Q R B C) as BC.
  (* degenerate cases by cancellation *)
  destruct (eadd P Q) as [[x4 y4]|] eqn:E4.
  2:{ apply eadd_none in E4; auto. subst Q. rewrite eadd_cancel; auto. }
  destruct (eadd Q R) as [[x5 y5]|] eqn:E5.
  2:{ apply eadd_none in E5; auto. subst R. rewrite eadd_0_r, <- E4. rewrite (eadd_comm (eadd P Q)), (eadd_comm P Q); auto using eneg_onc, eadd_onc. now apply eadd_cancel'. }
  destruct P as [[x1 y1]|]. 2:{ cbn in E4. rewrite <- E5, <- E4. reflexivity. }
  destruct R as [[x3 y3]|]. 2:{ rewrite eadd_0_r in E5. rewrite <- E5, E4. apply eadd_0_r. }
  destruct Q as [[x2 y2]|]. 2:{ cbn in E5. rewrite eadd_0_r in E4. congruence. }
  destruct (opp_cases x4 y4 x3 y3) as [[-> ->]|N4].
  { (* P + Q = -R *)
    change (Some (x3, - y3)) with (eneg (Some (x3, y3))) in *. rewrite (eadd_comm (eneg _)), eadd_neg_r; auto using eneg_onc.
    assert (EQ : Some (x2, y2) = eadd (eneg (Some (x1, y1))) (eneg (Some (x3, y3)))) by (rewrite <- E4; symmetry; now apply eadd_cancel').
    rewrite <- E5, EQ. rewrite (eadd_comm _ (Some (x3, y3))), (eadd_comm (eneg (Some (x1, y1)))); auto using eneg_onc, eadd_onc.
    rewrite eadd_cancel; auto using eneg_onc. now rewrite eadd_neg_r. }
  destruct (opp_cases x1 y1 x5 y5) as [[-> ->]|N5].
  { change (Some (x5, - y5)) with (eneg (Some (x5, y5))) in *. rewrite (eadd_comm (eneg _)), eadd_neg_r; auto using eneg_onc.
    assert (EQ : Some (x2, y2) = eadd (eneg (Some (x3, y3))) (Some (x5, y5))).
    { rewrite <- E5. rewrite (eadd_comm (Some (x2, y2))); auto. symmetry. now apply eadd_cancel'. }
    rewrite <- E4, EQ. rewrite (eadd_comm (eneg (Some (x5, y5)))), (eadd_comm (eneg (Some (x3, y3)))); auto using eneg_onc, eadd_onc.
    assert (G : forall X Y, onc X -> onc Y -> eadd (eadd X Y) (eneg X) = Y) by (intros; rewrite eadd_comm, eadd_cancel'; auto using eneg_onc, eadd_onc).
    rewrite G; auto using eneg_onc. rewrite eadd_comm, eadd_neg_r; auto using eneg_onc. }
  assert (NE : (x1 = x3 /\ y1 = y3) \/ ~ (x1 = x3 /\ y1 = y3)) by (destruct (F_dec _ x1 x3), (F_dec _ y1 y3); tauto).
  destruct NE as [[<- <-]|NE].
  { rewrite <- E4, <- E5, (eadd_comm (Some (x2, y2))); auto. apply eadd_comm; auto. rewrite E4. auto. }
  assert (M1 : ~ (x1 = x2 /\ y1 = - y2)) by (intros [-> ->]; change (Some (x2, - y2)) with (eneg (Some (x2, y2))) in E4; rewrite eadd_neg_l in E4; discriminate).
  assert (M2 : ~ (x2 = x3 /\ y2 = - y3)) by (intros [-> ->]; change (Some (x3, - y3)) with (eneg (Some (x3, y3))) in E5; rewrite eadd_neg_l in E5; discriminate).
  destruct (slope_exists _ _ _ _ A B M1) as [l Sl]. destruct (slope_exists _ _ _ _ B C M2) as [g Sg].
  rewrite (eadd_slope _ _ _ _ l) in E4 by auto. rewrite (eadd_slope _ _ _ _ g) in E5 by auto.
  apply (assoc_affine x1 y1 x2 y2 x3 y3 l g); auto; congruence.
Qed.

(** ** multiples *)
Lemma emul_onc k P : onc P -> onc (emul k P).
Proof. intros A. induction k; [exact I|]. apply eadd_onc; auto. Qed.
Lemma emul_add j k P : onc P -> emul (j + k) P = eadd (emul j P) (emul k P).
Proof. intros A. induction j as [|j IH]; [reflexivity|]. cbn [emul Nat.add]. rewrite IH, eadd_assoc; auto using emul_onc. Qed.
End Curve.
