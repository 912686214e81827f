(** Model of halo2-ecc/src/bn254/final_exp.rs: the methods [Fp12Chip] gets there, for a base field [m], [XI_0 = xi0] and the table
    [FROBENIUS_COEFF_FQ12_C1] of halo2curves given as a parameter (its contents are a dependency's constants; the properties say what they assume of it). *)
From Coq Require Import ZArith Lia List Bool.
From Verif Require Import Field Context Utils Gate Range BigInt FpChip FieldExt ExtSpec Ecc.
Import ListNotations.
Local Open Scope Z_scope.
Local Open Scope monad_scope.

(** halo2curves' [Fq2::pow_vartime] at a small exponent, and [==] *)
Fixpoint x2_npow {m : positive} (x : x2 m) (i : nat) : x2 m := match i with O => x2_1 | S i => x2_mul x (x2_npow x i) end.
Definition x2_eqb {m : positive} (x y : x2 m) : bool := x2_is0 (x2_sub x y).

Section FinalExp.
Context {p : positive} (lb : nat) (m : positive) (ch : fpchip p) (xi0 : Z) (ftab : list (x2 m)).
Notation Fm := (F m).
Notation M := (M p).
Notation crt := (crt p).
Notation vec := (list crt).
(** the witness hints: [a * b.invert().unwrap_or_default()] in Fp2 and Fp12 (fields/mod.rs:229-230) *)
Variables (hint2 hint12 : list Fm -> list Fm -> list Fm).
Notation mul2 := (ext_mul lb ch (fp2_mul_no_carry ch)).
Notation divu2 := (ext_divide_unsafe lb m ch 2 (fp2_mul_no_carry ch) hint2).
Notation mul12 := (ext_mul lb ch (fp12_mul_no_carry ch xi0)).
Notation divu12 := (ext_divide_unsafe lb m ch 12 (fp12_mul_no_carry ch xi0) hint12).

(** final_exp.rs:59-65 (also pairing.rs:158-165): the coordinates of six Fp2 elements, first coordinates first *)
Definition fp2s_coeffs (l : list vec) : M vec :=
  x0 <- mapM (fun x : vec => lift (nth_error x 0)) l ;;
  x1 <- mapM (fun x : vec => lift (nth_error x 1)) l ;;
  ret (x0 ++ x1).
(** final_exp.rs:37-57, one coefficient of [frobenius_map] *)
Definition frobenius_coeff (pow : nat) (a : vec) (i : nat) : M vec :=
  c <- lift (nth_error ftab pow) ;;
  let fc := x2_npow c i in
  a0 <- lift (nth_error a i) ;;
  a1 <- lift (nth_error a (i + 6)) ;;
  v <- (if Nat.eqb (pow mod 2) 0 then ret [a0; a1] else fp2_conjugate lb ch [a0; a1]) ;;
  if x2_eqb fc x2_1 then ret v
  else if Fis0 (snd fc) then
    f <- fp_load_constant m ch (fst fc) ;;
    nc <- vec_fp_mul_no_carry ch v f ;;
    vec_carry_mod lb ch nc
  else
    f <- vec_load_constant m ch [fst fc; snd fc] ;;
    mul2 v f.
(** final_exp.rs:21-68 [frobenius_map] *)
Definition frobenius_map (a : vec) (power : nat) : M vec :=
  assert_ (Z.eqb (modulus (p:=m) mod 4) 3) ;;;
  assert_ (Z.eqb (modulus (p:=m) mod 6) 1) ;;;
  assert_ (Nat.eqb (length a) 12) ;;;
  out <- mapM (frobenius_coeff (power mod 12) a) (seq 0 6) ;;
  fp2s_coeffs out.

(** final_exp.rs:70-105 [pow] *)
Definition fp12_pow (a : vec) (exp : list Z) : M vec :=
  naf <- lift (get_naf exp) ;;
  r <- foldM (fun (st : vec * bool) z =>
                let '(res, started) := st in
                res <- (if started then mul12 res res else ret res) ;;
                if Z.eqb z 0 then ret (res, started)
                else
                  assert_ (Z.eqb z 1 || Z.eqb z (-1)) ;;;
                  if (started : bool) then
                    res <- (if Z.eqb z 1 then mul12 res a else divu12 res a) ;; ret (res, true)
                  else assert_ (Z.eqb z 1) ;;; ret (res, true)) (rev naf) (a, false) ;;
  ret (fst r).

(** final_exp.rs:115-124 [cyclotomic_compress] *)
Definition cyclotomic_compress (a : vec) : M (list vec) :=
  let g i := x <- lift (nth_error a i) ;; y <- lift (nth_error a (i + 6)) ;; ret [x; y] in
  g2 <- g 1%nat ;; g3 <- g 4%nat ;; g4 <- g 2%nat ;; g5 <- g 5%nat ;;
  ret [g2; g3; g4; g5].
(** final_exp.rs:181-186 *)
Definition crt_plus_one (x : crt) : M crt :=
  match o_limbs (c_trunc x) with
  | [] => panic
  | l0 :: ls =>
      l <- add (Existing l0) (Constant F1) ;;
      nt <- add (Existing (c_nat x)) (Constant F1) ;;
      ret (mkCrt (mkOvi (l :: ls) (o_bits (c_trunc x) + 1)) nt (c_val x + 1))
  end.
(** final_exp.rs:126-213 [cyclotomic_decompress] *)
Definition cyclotomic_decompress (compression : list vec) : M vec :=
  match compression with
  | [g2; g3; g4; g5] =>
      g5_sq <- fp2_mul_no_carry ch g5 g5 ;;
      g5_sq_c <- mul_no_carry_w6 xi0 g5_sq ;;
      g4_sq <- fp2_mul_no_carry ch g4 g4 ;;
      g4_sq_3 <- vec_scalar_mul_no_carry g4_sq 3 ;;
      g3_2 <- vec_scalar_mul_no_carry g3 2 ;;
      t <- vec_add_no_carry g5_sq_c g4_sq_3 ;;
      g1_num <- vec_sub_no_carry t g3_2 ;;
      g2_4 <- vec_scalar_mul_no_carry g2 4 ;;
      g1_1 <- divu2 g1_num g2_4 ;;
      g4_g5 <- fp2_mul_no_carry ch g4 g5 ;;
      g1_num <- vec_scalar_mul_no_carry g4_g5 2 ;;
      g1_0 <- divu2 g1_num g3 ;;
      g2_is_zero <- vec_is_zero lb ch g2 ;;
      g1 <- vec_select g1_0 g1_1 g2_is_zero ;;
      g1_sq <- fp2_mul_no_carry ch g1 g1 ;;
      g1_sq_2 <- vec_scalar_mul_no_carry g1_sq 2 ;;
      g2_g5 <- fp2_mul_no_carry ch g2 g5 ;;
      g3_g4 <- fp2_mul_no_carry ch g3 g4 ;;
      g3_g4_3 <- vec_scalar_mul_no_carry g3_g4 3 ;;
      temp <- vec_add_no_carry g1_sq_2 g2_g5 ;;
      temp <- vec_select g1_sq_2 temp g2_is_zero ;;
      temp <- vec_sub_no_carry temp g3_g4_3 ;;
      g0 <- mul_no_carry_w6 xi0 temp ;;
      g0 <- match g0 with [] => panic | x :: r => y <- crt_plus_one x ;; ret (y :: r) end ;;
      g0 <- vec_carry_mod lb ch g0 ;;
      fp2s_coeffs [g0; g2; g4; g1; g3; g5]
  | _ => panic
  end.
(** final_exp.rs:215-277 [cyclotomic_square] *)
Definition cyclotomic_square (compression : list vec) : M (list vec) :=
  match compression with
  | [g2; g3; g4; g5] =>
      g2_plus_g3 <- vec_add_no_carry g2 g3 ;;
      cg3 <- mul_no_carry_w6 xi0 g3 ;;
      g2_plus_cg3 <- vec_add_no_carry g2 cg3 ;;
      a23 <- fp2_mul_no_carry ch g2_plus_g3 g2_plus_cg3 ;;
      g4_plus_g5 <- vec_add_no_carry g4 g5 ;;
      cg5 <- mul_no_carry_w6 xi0 g5 ;;
      g4_plus_cg5 <- vec_add_no_carry g4 cg5 ;;
      a45 <- fp2_mul_no_carry ch g4_plus_g5 g4_plus_cg5 ;;
      b23 <- fp2_mul_no_carry ch g2 g3 ;;
      b45 <- fp2_mul_no_carry ch g4 g5 ;;
      b45_c <- mul_no_carry_w6 xi0 b45 ;;
      temp <- vec_scalar_mul_and_add_no_carry b45_c g2 3 ;;
      h2 <- vec_scalar_mul_no_carry temp 2 ;;
      temp <- vec_add_no_carry b45_c b45 ;;
      temp <- vec_sub_no_carry a45 temp ;;
      temp <- vec_scalar_mul_no_carry temp 3 ;;
      h3 <- vec_scalar_mul_and_add_no_carry g3 temp (-2) ;;
      temp <- mul_no_carry_w6 (xi0 + 1) b23 ;;
      temp <- vec_sub_no_carry a23 temp ;;
      temp <- vec_scalar_mul_no_carry temp 3 ;;
      h4 <- vec_scalar_mul_and_add_no_carry g4 temp (-2) ;;
      temp <- vec_scalar_mul_and_add_no_carry b23 g5 3 ;;
      h5 <- vec_scalar_mul_no_carry temp 2 ;;
      mapM (vec_carry_mod lb ch) [h2; h3; h4; h5]
  | _ => panic
  end.
(** final_exp.rs:279-320 [cyclotomic_pow]; the state is (compression, out, is_started) *)
Definition cyclotomic_pow (a : vec) (exp : list Z) : M vec :=
  c0 <- cyclotomic_compress a ;;
  naf <- lift (get_naf exp) ;;
  st <- foldM (fun (st : list vec * option vec * bool) z =>
                 let '(compression, out, started) := st in
                 compression <- (if started then cyclotomic_square compression else ret compression) ;;
                 if Z.eqb z 0 then ret (compression, out, started)
                 else
                   assert_ (Z.eqb z 1 || Z.eqb z (-1)) ;;;
                   if (started : bool) then
                     res <- cyclotomic_decompress compression ;;
                     res <- (if Z.eqb z 1 then mul12 res a else divu12 res a) ;;
                     c <- cyclotomic_compress res ;;
                     ret (c, Some res, true)
                   else assert_ (Z.eqb z 1) ;;; ret (compression, out, true)) (rev naf) (c0, None, false) ;;
  let '(compression, out, _) := st in
  n0 <- lift (nth_error naf 0) ;;
  if Z.eqb n0 0 then cyclotomic_decompress compression
  else ret (match out with Some o => o | None => a end).

(** final_exp.rs:322-381 [hard_part_BN]; [bn_x] is halo2curves' [BN_X] *)
Definition hard_part_BN (bn_x : Z) (m' : vec) : M vec :=
  mp <- frobenius_map m' 1 ;;
  mp2 <- frobenius_map m' 2 ;;
  mp3 <- frobenius_map m' 3 ;;
  mp2_mp3 <- mul12 mp2 mp3 ;;
  y0 <- mul12 mp mp2_mp3 ;;
  y1 <- fp12_conjugate lb ch m' ;;
  mx <- cyclotomic_pow m' [bn_x] ;;
  mxp <- frobenius_map mx 1 ;;
  mx2 <- cyclotomic_pow mx [bn_x] ;;
  mx2p <- frobenius_map mx2 1 ;;
  y2 <- frobenius_map mx2 2 ;;
  y5 <- fp12_conjugate lb ch mx2 ;;
  mx3 <- cyclotomic_pow mx2 [bn_x] ;;
  mx3p <- frobenius_map mx3 1 ;;
  y3 <- fp12_conjugate lb ch mxp ;;
  mx_mx2p <- mul12 mx mx2p ;;
  y4 <- fp12_conjugate lb ch mx_mx2p ;;
  mx3_mx3p <- mul12 mx3 mx3p ;;
  y6 <- fp12_conjugate lb ch mx3_mx3p ;;
  t0 <- mul12 y6 y6 ;;
  t0 <- mul12 t0 y4 ;;
  t0 <- mul12 t0 y5 ;;
  t1 <- mul12 y3 y5 ;;
  t1 <- mul12 t1 t0 ;;
  t0 <- mul12 t0 y2 ;;
  t1 <- mul12 t1 t1 ;;
  t1 <- mul12 t1 t0 ;;
  t1 <- mul12 t1 t1 ;;
  t0 <- mul12 t1 y1 ;;
  t1 <- mul12 t1 y0 ;;
  t0 <- mul12 t0 t0 ;;
  mul12 t0 t1.
(** final_exp.rs:383-397 [easy_part] *)
Definition easy_part (a : vec) : M vec :=
  f1 <- fp12_conjugate lb ch a ;;
  f2 <- divu12 f1 a ;;
  f3 <- frobenius_map f2 2 ;;
  mul12 f3 f2.
(** final_exp.rs:399-408 [final_exp] *)
Definition final_exp (bn_x : Z) (a : vec) : M vec :=
  f0 <- easy_part a ;;
  hard_part_BN bn_x f0.
End FinalExp.
