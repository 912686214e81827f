(** Model of halo2-ecc/src/ecc/ecdsa.rs and halo2-ecc/src/ecc/schnorr_signature.rs over [FpChip].
    [m] is the modulus of the coordinate field CF, [o] that of the scalar field SF (the group order). [(gx, gy)] is [GA::generator()].
    The pairs [(a1x, a1y)], [(s1x, s1y)], ... are the random values drawn by the callees. *)
From Coq Require Import ZArith Lia List Bool.
From Verif Require Import Field Context Utils Gate Range BigInt FpChip SafeTypes EcGroup Ecc FixedBase.
Import ListNotations.
Local Open Scope Z_scope.
Local Open Scope monad_scope.

Section Signatures.
Context {p : positive} (lb : nat) (m o : positive).
Variable ch : fpchip p.
Variable b : F m.
(** random values of: fixed_base::scalar_multiply (point, and ec_sub_strict's), scalar_multiply (same), sum (point) *)
Record draws := mkDraws { d1x : F m; d1y : F m; e1x : F m; e1y : F m; d2x : F m; d2y : F m; e2x : F m; e2y : F m; d3x : F m; d3y : F m }.

(** ecdsa.rs:16-105 [ecdsa_verify_no_pubkey_check] *)
Definition ecdsa_verify (d : draws) (gx gy : F m) (pubkey : ecpt p) (r s msghash : crt p) (var_window_bits fixed_window_bits : nat) : M p (AV p) :=
  (* lines 31-35 *)
  sch <- lift (fpchip_new o (f_bits ch) (f_num ch)) ;;
  nl <- lift (decompose_biguint (p:=p) (f_p sch) (f_num sch) (f_bits sch)) ;;
  n <- mapM load_constant nl ;;
  (* 38-39 *)
  r_valid <- fp_is_soft_nonzero lb sch r ;;
  s_valid <- fp_is_soft_nonzero lb sch s ;;
  (* 42-43 *)
  u1 <- fp_divide_unsafe lb o sch msghash s ;;
  u2 <- fp_divide_unsafe lb o sch r s ;;
  (* 46-61 *)
  u1_mul <- fixed_scalar_multiply lb m ch b (d1x d) (d1y d) (e1x d) (e1y d) (Some (gx, gy)) (c_limbs u1) (f_bits ch) fixed_window_bits ;;
  u2_mul <- scalar_multiply lb m ch b (d2x d) (d2y d) (e2x d) (e2y d) pubkey (c_limbs u2) (f_bits ch) var_window_bits ;;
  (* 67-70 *)
  x_eq <- fp_is_equal lb ch (px u1_mul) (px u2_mul) ;;
  x_neq <- not (Existing x_eq) ;;
  y_eq <- fp_is_equal lb ch (py u1_mul) (py u2_mul) ;;
  u1g_u2pk_not_neg <- or (Existing x_neq) (Existing y_eq) ;;
  (* 74-79 *)
  sum <- ecc_sum lb m ch b (d3x d) (d3y d) [u1_mul; u2_mul] ;;
  x1 <- fp_enforce_less_than lb sch (px sum) ;;
  equal_check <- big_is_equal (c_limbs x1) (c_limbs r) ;;
  (* 81-96 *)
  b1 <- lift (base1 ch) ;;
  u1_small <- big_less_than lb (c_limbs u1) n (f_bits ch) b1 ;;
  u2_small <- big_less_than lb (c_limbs u2) n (f_bits ch) b1 ;;
  (* 99-103 *)
  res1 <- and (Existing r_valid) (Existing s_valid) ;;
  res2 <- and (Existing res1) (Existing u1_small) ;;
  res3 <- and (Existing res2) (Existing u2_small) ;;
  res4 <- and (Existing res3) (Existing u1g_u2pk_not_neg) ;;
  and (Existing res4) (Existing equal_check).

(** schnorr_signature.rs:19-84 [schnorr_verify_no_pubkey_check] *)
Definition schnorr_verify (d : draws) (gx gy : F m) (pubkey : ecpt p) (r s msgHash : crt p) (var_window_bits fixed_window_bits : nat) : M p (AV p) :=
  sch <- lift (fpchip_new o (f_bits ch) (f_num ch)) ;;
  r_valid <- is_less_than_p lb ch r ;;
  s_valid <- fp_is_soft_nonzero lb sch s ;;
  e_valid <- fp_is_soft_nonzero lb sch msgHash ;;
  s_G <- fixed_scalar_multiply lb m ch b (d1x d) (d1y d) (e1x d) (e1y d) (Some (gx, gy)) (c_limbs s) (f_bits ch) fixed_window_bits ;;
  e_P <- scalar_multiply lb m ch b (d2x d) (d2y d) (e2x d) (e2y d) pubkey (c_limbs msgHash) (f_bits ch) var_window_bits ;;
  x_eq <- fp_is_equal lb ch (px s_G) (px e_P) ;;
  x_neq <- not (Existing x_eq) ;;
  R <- ec_sub_unequal lb m ch (NonStrict s_G) (NonStrict e_P) true ;;
  R_y_is_even <- fp_is_even lb ch (py R) ;;
  R_x <- fp_enforce_less_than lb sch (px R) ;;
  equal_check <- big_is_equal (c_limbs R_x) (c_limbs r) ;;
  res1 <- and (Existing r_valid) (Existing s_valid) ;;
  res2 <- and (Existing res1) (Existing e_valid) ;;
  res3 <- and (Existing res2) (Existing x_neq) ;;
  res4 <- and (Existing res3) (Existing R_y_is_even) ;;
  and (Existing res4) (Existing equal_check).
End Signatures.
Arguments draws : clear implicits.
