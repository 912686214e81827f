(** Model of [EccChip] of halo2-ecc/src/ecc/mod.rs over [Fp2Chip]: loading, strict addition and subtraction, [sum]; and of the part of
    bn254/bls_signature.rs that aggregates signatures and public keys. [g2_add_unequal] and [g2_negate] are in Pairing.v. *)
From Coq Require Import ZArith Lia List Bool.
From Verif Require Import Field Context Utils Gate Range BigInt FpChip FieldExt ExtSpec ExtSpec2 Ecc FinalExp Pairing Bls.
Import ListNotations.
Local Open Scope Z_scope.
Local Open Scope monad_scope.

Section EccG2.
Context {p : positive} (lb : nat) (m : positive) (ch : fpchip p).
Notation M := (M p).
Notation vec := (list (crt p)).
Notation g2pt := (g2pt p).
Variables (hint2 neghint2 : list (F m) -> list (F m) -> list (F m)).
Notation mul2_nc := (fp2_mul_no_carry ch).
(** ecc/mod.rs:194-197: the x-coordinate of a [StrictEcPoint] ([strict = true]) or of an [EcPoint], which is reduced first *)
Definition g2_strict_x (strict : bool) (P : g2pt) : M vec := if strict then ret (gx P) else vec_enforce_less_than lb ch (gx P).
(** ecc/mod.rs:186-207 [check_points_are_unequal] with [do_check = true] *)
Definition g2_check_unequal (sP sQ : bool) (P Q : g2pt) : M unit :=
  x1 <- g2_strict_x sP P ;;
  x2 <- g2_strict_x sQ Q ;;
  x_is_equal <- vec_is_equal_unenforced x1 x2 ;;
  assert_is_const x_is_equal F0.
(** ecc/mod.rs:155-182 [ec_add_unequal] with [is_strict = true] *)
Definition g2_add_unequal_strict (sP sQ : bool) (P Q : g2pt) : M g2pt :=
  g2_check_unequal sP sQ P Q ;;;
  g2_add_unequal lb m ch hint2 P Q.
(** ecc/mod.rs:229-252 [ec_sub_unequal], after the check *)
Definition g2_sub_unequal (P Q : g2pt) : M g2pt :=
  dx <- vec_sub_no_carry (gx Q) (gx P) ;;
  sy <- vec_add_no_carry (gy Q) (gy P) ;;
  lambda <- ext_neg_divide_unsafe lb m ch 2 mul2_nc neghint2 sy dx ;;
  lambda_sq <- mul2_nc lambda lambda ;;
  lambda_sq_minus_px <- vec_sub_no_carry lambda_sq (gx P) ;;
  x_3_no_carry <- vec_sub_no_carry lambda_sq_minus_px (gx Q) ;;
  x_3 <- vec_carry_mod lb ch x_3_no_carry ;;
  dx_13 <- vec_sub_no_carry (gx P) x_3 ;;
  lambda_dx_13 <- mul2_nc lambda dx_13 ;;
  y_3_no_carry <- vec_sub_no_carry lambda_dx_13 (gy P) ;;
  y_3 <- vec_carry_mod lb ch y_3_no_carry ;;
  ret (mkG2 x_3 y_3).
(** ecc/mod.rs:220-252 [ec_sub_unequal] with [is_strict = true] *)
Definition g2_sub_unequal_strict (sP sQ : bool) (P Q : g2pt) : M g2pt :=
  g2_check_unequal sP sQ P Q ;;;
  g2_sub_unequal P Q.
(** ecc/mod.rs:623-632 [into_strict_point] *)
Definition g2_into_strict_point (P : g2pt) : M g2pt :=
  x <- vec_enforce_less_than lb ch (gx P) ;;
  ret (mkG2 x (gy P)).
(** the curve coefficient [C::b()] *)
Variable b : x2 m.
(** ecc/mod.rs:590-603 [check_is_on_curve] *)
Definition g2_check_is_on_curve (P : g2pt) : M unit :=
  lhs <- mul2_nc (gy P) (gy P) ;;
  rhs <- ext_mul lb ch mul2_nc (gx P) (gx P) ;;
  rhs <- mul2_nc rhs (gx P) ;;
  rhs <- vec_add_constant_no_carry m ch rhs [fst b; snd b] ;;
  diff <- vec_sub_no_carry lhs rhs ;;
  vec_check_carry_mod_to_zero lb ch diff.
(** ecc/mod.rs:845-856 [load_private_unchecked] *)
Definition g2_load_private_unchecked (A : x2 m * x2 m) : M g2pt :=
  x <- vec_load_private lb m ch [fst (fst A); snd (fst A)] ;;
  y <- vec_load_private lb m ch [fst (snd A); snd (snd A)] ;;
  ret (mkG2 x y).
(** ecc/mod.rs:831-843 [load_private] and 605-621 [load_random_point] ([A] is the random point), pairing.rs:462-466 [load_private_g2] *)
Definition g2_load_private (A : x2 m * x2 m) : M g2pt :=
  P <- g2_load_private_unchecked A ;;
  g2_check_is_on_curve P ;;;
  ret P.
(** ecc/mod.rs:1006-1009, the body of the loop *)
Definition g2_sum_step (acc point : g2pt) : M g2pt :=
  acc' <- g2_add_unequal_strict true false acc point ;;
  g2_into_strict_point acc'.
(** ecc/mod.rs:995-1011 [sum]; [A] is the random point *)
Definition g2_sum (A : x2 m * x2 m) (points : list g2pt) : M g2pt :=
  rand_point <- g2_load_private A ;;
  rand_point <- g2_into_strict_point rand_point ;;
  acc <- foldM g2_sum_step points rand_point ;;
  g2_sub_unequal_strict true true acc rand_point.
End EccG2.

Section BlsAgg.
Context {p : positive} (lb : nat) (m : positive) (ch : fpchip p) (xi0 : Z) (ftab : list (x2 m)).
Variables (hint2 neghint2 hint12 : list (F m) -> list (F m) -> list (F m)) (naf : list Z) (bx : Z) (b1 : F m) (b2 : x2 m).
(** bls_signature.rs:36-77 [bls_signature_verify] on loaded points: [g1] is [g1_assigned], [msg] is [hash_m_assigned], [sigs] and [pks] are [signature_points] and
    [pubkey_points]; the code loads them just before the sums. [R1], [R2] are the random points of the two sums *)
Definition bls_signature_verify (R1 : F m * F m) (R2 : x2 m * x2 m) (g1 : ecpt p) (sigs : list (g2pt p)) (pks : list (ecpt p)) (msg : g2pt p) : M p (AV p) :=
  assert_ (Nat.eqb (length sigs) (length pks)) ;;;
  assert_ (negb (Nat.eqb (length sigs) 0)) ;;;
  assert_ (negb (Nat.eqb (length pks) 0)) ;;;
  signature_agg <- g2_sum lb m ch hint2 neghint2 b2 R2 sigs ;;
  pubkey_agg <- ecc_sum lb m ch b1 (fst R1) (snd R1) pks ;;
  bls_verify lb m ch xi0 ftab hint2 hint12 naf bx g1 signature_agg pubkey_agg msg.
(** bls_signature.rs:36-77 [bls_signature_verify], with its loads: [g1v], [sigv], [pkv], [msgv] are the points the caller passes *)
Definition bls_signature_verify_points (R1 : F m * F m) (R2 : x2 m * x2 m) (g1v : F m * F m) (sigv : list (x2 m * x2 m)) (pkv : list (F m * F m)) (msgv : x2 m * x2 m) : M p (AV p) :=
  assert_ (Nat.eqb (length sigv) (length pkv)) ;;;
  assert_ (negb (Nat.eqb (length sigv) 0)) ;;;
  assert_ (negb (Nat.eqb (length pkv) 0)) ;;;
  g1_assigned <- ecc_load_private lb m ch b1 (fst g1v) (snd g1v) ;;
  hash_m_assigned <- g2_load_private lb m ch b2 msgv ;;
  signature_points <- mapM (g2_load_private lb m ch b2) sigv ;;
  signature_agg <- g2_sum lb m ch hint2 neghint2 b2 R2 signature_points ;;
  pubkey_points <- mapM (fun v => ecc_load_private lb m ch b1 (fst v) (snd v)) pkv ;;
  pubkey_agg <- ecc_sum lb m ch b1 (fst R1) (snd R1) pubkey_points ;;
  bls_verify lb m ch xi0 ftab hint2 hint12 naf bx g1_assigned signature_agg pubkey_agg hash_m_assigned.
End BlsAgg.
