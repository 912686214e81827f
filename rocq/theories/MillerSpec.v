(** Miller's algorithm for the optimal Ate pairing on a BN curve [y^2 = x^3 + b], from the textbook: points of the twist [E'(Fp2)] are pairs over Fp2, and
    [twist (x, y) = (w^2 x, w^3 y)] embeds them in [E(Fp12)]. Independent of the code of halo2-ecc/src/bn254/pairing.rs. *)
From Coq Require Import ZArith NArith Znumtheory Lia List Bool Ring.
From Verif Require Import Field Spec Context Utils Logic Gate GateProofs Pocklington ExtSpec ExtSpec2 RingPow CycSpec FrobSpec.
Import ListNotations.
Local Open Scope Z_scope.

Section Miller.
Context {m : positive} (xi0 : Z).
Notation X2 := (x2 m).
Notation w6 := (w6 (m:=m)).
Notation xi := (xi (m:=m) xi0).
Add Ring X2ringm : (x2_ring (m:=m)).
Add Ring W6ringm : (w6_ring (m:=m) xi0).
Add Ring Fringm : (F_ring m) (morphism (F_morph m), constants [Fcst]).
Declare Scope w6_scope.
Delimit Scope w6_scope with W.
Local Notation "a * b" := (w6_mul xi0 a b) : w6_scope.
Local Notation "a + b" := (w6_add a b) : w6_scope.
Local Notation "a - b" := (w6_sub a b) : w6_scope.
Declare Scope x2_scope.
Delimit Scope x2_scope with X.
Local Notation "a * b" := (x2_mul a b) : x2_scope.
Local Notation "a + b" := (x2_add a b) : x2_scope.
Local Notation "a - b" := (x2_sub a b) : x2_scope.
Notation pw := (npow (w6_1 (m:=m)) (w6_mul (m:=m) xi0)).
Notation q := (N.pos m).

(** ** Lines in the plane over Fp12 *)
Definition pt12 : Type := (w6 * w6)%type.
(** the line through [A] and [B], evaluated at [T] *)
Definition chord_at (A B T : pt12) : w6 := ((fst B - fst A) * (snd T - snd A) - (snd B - snd A) * (fst T - fst A))%W.
(** the tangent of [y^2 = x^3 + b] at [A], evaluated at [T]: the differential of the equation is [2 y dy - 3 x^2 dx] *)
Definition tangent_at (A T : pt12) : w6 :=
  ((w6_1 + w6_1) * snd A * (snd T - snd A) - (w6_1 + w6_1 + w6_1) * fst A * fst A * (fst T - fst A))%W.
Lemma chord_at_l A B : chord_at A B A = w6_0. Proof. unfold chord_at. ring. Qed.
Lemma chord_at_r A B : chord_at A B B = w6_0. Proof. unfold chord_at. ring. Qed.
Lemma tangent_at_l A : tangent_at A A = w6_0. Proof. unfold tangent_at. ring. Qed.

(** ** Points *)
Definition pt2 : Type := (X2 * X2)%type.
Definition twist (Q : pt2) : pt12 := ((w6_w * w6_w * w6_c (fst Q))%W, (w6_w * w6_w * w6_w * w6_c (snd Q))%W).
Definition embed (P : F m * F m) : pt12 := (iF (fst P), iF (snd P)).
(** affine addition on the curve (chord and tangent); [None] where the affine formula divides by zero *)
Definition same_x (x y : X2) : bool := x2_is0 (x - y)%X.
Definition third (s x1 y1 x2 : X2) : pt2 := let x3 := (s * s - x1 - x2)%X in (x3, (s * (x1 - x3) - y1)%X).
Definition pt_dbl (A : pt2) : option pt2 :=
  if x2_is0 (snd A) then None
  else Some (third ((x2_1 + x2_1 + x2_1) * fst A * fst A * x2_inv ((x2_1 + x2_1) * snd A))%X (fst A) (snd A) (fst A)).
Definition pt_add (A B : pt2) : option pt2 :=
  if same_x (fst A) (fst B) then None
  else Some (third ((snd B - snd A) * x2_inv (fst B - fst A))%X (fst A) (snd A) (fst B)).
Definition pt_neg (A : pt2) : pt2 := (fst A, x2_opp (snd A)).
(** the [q]-power Frobenius endomorphism of [E(Fp12)] on twisted points: see [twist_frob] *)
Definition pt_frob (A : pt2) : pt2 := let g := gam (m:=m) xi0 1 in ((g * g * x2_conj (fst A))%X, (g * g * g * x2_conj (snd A))%X).

(** ** Miller's algorithm. The state is the value [f] and the point [R] *)
Definition miller_add (P : F m * F m) (st : w6 * pt2) (S : pt2) : option (w6 * pt2) :=
  let '(f, R) := st in
  match pt_add R S with None => None | Some RS => Some ((f * chord_at (twist R) (twist S) (embed P))%W, RS) end.
Definition miller_dbl (P : F m * F m) (st : w6 * pt2) : option (w6 * pt2) :=
  let '(f, R) := st in
  match pt_dbl R with None => None | Some RR => Some ((f * f * tangent_at (twist R) (embed P))%W, RR) end.
Definition signed (d : Z) (Q : pt2) : pt2 := if Z.eqb d 1 then Q else pt_neg Q.
(** one digit [d] in {-1, 0, 1} *)
Definition miller_iter (Q : pt2) (P : F m * F m) (st : w6 * pt2) (d : Z) : option (w6 * pt2) :=
  match miller_dbl P st with
  | None => None
  | Some st => if Z.eqb d 0 then Some st else miller_add P st (signed d Q)
  end.
Fixpoint miller_iters (Q : pt2) (P : F m * F m) (st : w6 * pt2) (ds : list Z) : option (w6 * pt2) :=
  match ds with
  | [] => Some st
  | d :: ds => match miller_iter Q P st d with None => None | Some st => miller_iters Q P st ds end
  end.
(** [f_(s,Q)(P) * l_(sQ, pi Q)(P) * l_(sQ + pi Q, - pi^2 Q)(P)]; [ds] are the digits of [s], most significant (non-zero) first.
    The last line does not need the sum of its two points, which may be the point at infinity *)
Definition miller_final (Q : pt2) (P : F m * F m) (st : w6 * pt2) : option w6 :=
  match miller_add P st (pt_frob Q) with
  | None => None
  | Some (f, R) => Some (f * chord_at (twist R) (twist (pt_neg (pt_frob (pt_frob Q)))) (embed P))%W
  end.
Definition miller (Q : pt2) (P : F m * F m) (ds : list Z) : option w6 :=
  match ds with
  | [] => None
  | d :: ds => match miller_iters Q P (w6_1, signed d Q) ds with None => None | Some st => miller_final Q P st end
  end.
(** a product over several pairs *)
Fixpoint millers (pairs : list ((F m * F m) * pt2)) (ds : list Z) : option w6 :=
  match pairs with
  | [] => Some w6_1
  | (P, Q) :: r => match miller Q P ds, millers r ds with Some f, Some g => Some (f * g)%W | _, _ => None end
  end.

(** ** The lines as sparse elements *)
Ltac tuple := repeat match goal with |- (_, _) = (_, _) => apply f_equal2 end.
Lemma chord_sparse (A B : pt2) (X Y : F m) : chord_at (twist A) (twist B) (embed (X, Y)) =
  (x2_0, x2_0, ((fst B - fst A) * (Y, F0))%X, ((snd A - snd B) * (X, F0))%X, x2_0, (fst A * snd B - fst B * snd A)%X).
Proof.
  destruct A as [xA yA], B as [xB yB]. cbn [fst snd]. unfold chord_at, twist, embed, iF. cbn [fst snd]. unfold w6_w, w6_c, w6_sub, w6_opp, w6_add, w6_mul. tuple; ring.
Qed.
Lemma tangent_sparse (A : pt2) (X Y : F m) : tangent_at (twist A) (embed (X, Y)) =
  ((xi * ((x2_1 + x2_1 + x2_1) * (fst A * fst A * fst A) - (x2_1 + x2_1) * (snd A * snd A)))%X, x2_0, x2_0, ((x2_1 + x2_1) * snd A * (Y, F0))%X, (x2_opp ((x2_1 + x2_1 + x2_1) * (fst A * fst A) * (X, F0)))%X, x2_0).
Proof.
  destruct A as [xA yA]. cbn [fst snd]. unfold tangent_at, twist, embed, iF, w6_1. cbn [fst snd]. unfold w6_w, w6_c, w6_sub, w6_opp, w6_add, w6_mul. tuple; ring.
Qed.
(** ** Frobenius *)
Hypothesis Hm : prime (Z.pos m).
Hypothesis H3 : Z.pos m mod 4 = 3.
Hypothesis H6 : Z.pos m mod 6 = 1.
Theorem twist_frob (A : pt2) : twist (pt_frob A) = (pw (fst (twist A)) q, pw (snd (twist A)) q).
Proof.
  assert (Q1 : q = (q ^ N.of_nat 1)%N) by (change (N.of_nat 1) with 1%N; now rewrite N.pow_1_r). rewrite Q1 at 1 2.
  unfold twist, pt_frob. cbn [fst snd]. rewrite !(npow_base _ _ _ _ _ _ (w6_ring xi0)), !(w_frob xi0 H6), !(c_frob xi0 Hm H3). cbn [cj Nat.even].
  apply f_equal2; rewrite <- !(c_mul xi0); ring.
Qed.
Lemma same_x_eq x y : same_x x y = true <-> x = y.
Proof.
  unfold same_x. rewrite x2_is0_eq. split; [intros E|intros ->; ring]. transitivity (x - y + y)%X; [ring|rewrite E; ring].
Qed.
End Miller.
