(** Model of halo2-ecc/src/bn254/pairing.rs, and of the curve operations of ecc/mod.rs it uses over [Fp2Chip] (Ecc.v models them over [FpChip]). Parameters
    as in FinalExp.v: [xi0] is [XI_0], [ftab] is halo2curves' [FROBENIUS_COEFF_FQ12_C1], [hint2], [hint12] the native quotients. A point of E(Fp) is an
    [ecpt] of Ecc.v. *)
From Coq Require Import ZArith Lia List Bool.
From Verif Require Import Field Context Utils Gate Range BigInt FpChip FieldExt ExtSpec ExtSpec2 Ecc FinalExp.
Import ListNotations.
Local Open Scope Z_scope.
Local Open Scope monad_scope.

(** ecc/mod.rs:26-31 [EcPoint] with field points of [Fp2Chip] *)
Record g2pt {p : positive} := mkG2 { gx : list (crt p); gy : list (crt p) }.
Arguments g2pt : clear implicits.
Arguments mkG2 {p} gx gy.
Arguments gx {p} g.
Arguments gy {p} g.
(** pairing.rs:219-223, 308-311: from the most significant digit down, without leading zeros *)
Fixpoint drop_zeros (l : list Z) : list Z := match l with [] => [] | d :: r => if Z.eqb d 0 then drop_zeros r else l end.

Section Pairing.
Context {p : positive} (lb : nat) (m : positive) (ch : fpchip p) (xi0 : Z) (ftab : list (x2 m)).
Notation Fm := (F m).
Notation M := (M p).
Notation crt := (crt p).
Notation vec := (list crt).
Notation ecpt := (ecpt p).
Notation g2pt := (g2pt p).
Variables (hint2 hint12 : list Fm -> list Fm -> list Fm).
Notation mul2_nc := (fp2_mul_no_carry ch).
Notation mul2 := (ext_mul lb ch (fp2_mul_no_carry ch)).
Notation divu2 := (ext_divide_unsafe lb m ch 2 (fp2_mul_no_carry ch) hint2).
Notation mul12 := (ext_mul lb ch (fp12_mul_no_carry ch xi0)).

(** * Curve operations over Fp2 *)
(** ecc/mod.rs:931-938 [negate] *)
Definition g2_negate (P : g2pt) : M g2pt := y <- vec_negate lb ch (gy P) ;; ret (mkG2 (gx P) y).
(** ecc/mod.rs:155-182 [ec_add_unequal] with [is_strict = false] ([check_points_are_unequal] then does nothing, 186-207) *)
Definition g2_add_unequal (P Q : g2pt) : M g2pt :=
  dx <- vec_sub_no_carry (gx Q) (gx P) ;;
  dy <- vec_sub_no_carry (gy Q) (gy P) ;;
  lambda <- divu2 dy dx ;;
  lambda_sq <- mul2_nc lambda lambda ;;
  lambda_sq_minus_px <- vec_sub_no_carry lambda_sq (gx P) ;;
  x_3_no_carry <- vec_sub_no_carry lambda_sq_minus_px (gx Q) ;;
  x_3 <- vec_carry_mod lb ch x_3_no_carry ;;
  dx_13 <- vec_sub_no_carry (gx P) x_3 ;;
  lambda_dx_13 <- mul2_nc lambda dx_13 ;;
  y_3_no_carry <- vec_sub_no_carry lambda_dx_13 (gy P) ;;
  y_3 <- vec_carry_mod lb ch y_3_no_carry ;;
  ret (mkG2 x_3 y_3).
(** ecc/mod.rs:312-338 [ec_double] *)
Definition g2_double (P : g2pt) : M g2pt :=
  two_y <- vec_scalar_mul_no_carry (gy P) 2 ;;
  three_x <- vec_scalar_mul_no_carry (gx P) 3 ;;
  three_x_sq <- mul2_nc three_x (gx P) ;;
  lambda <- divu2 three_x_sq two_y ;;
  lambda_sq <- mul2_nc lambda lambda ;;
  two_x <- vec_scalar_mul_no_carry (gx P) 2 ;;
  x_3_no_carry <- vec_sub_no_carry lambda_sq two_x ;;
  x_3 <- vec_carry_mod lb ch x_3_no_carry ;;
  dx <- vec_sub_no_carry (gx P) x_3 ;;
  lambda_dx <- mul2_nc lambda dx ;;
  y_3_no_carry <- vec_sub_no_carry lambda_dx (gy P) ;;
  y_3 <- vec_carry_mod lb ch y_3_no_carry ;;
  ret (mkG2 x_3 y_3).

(** * Line functions *)
(** pairing.rs:50-53, 91-94: the coefficients of a sparse Fp12 element are carried from left to right, [None] stands for zero *)
Definition carry_opt (c : option vec) : M (option vec) :=
  match c with None => ret None | Some v => o <- vec_carry_mod lb ch v ;; ret (Some o) end.
(** pairing.rs:25-54 [sparse_line_function_unequal] *)
Definition sparse_line_function_unequal (Q0 Q1 : g2pt) (P : ecpt) : M (list (option vec)) :=
  assert_ (Nat.eqb (length (gx Q0)) 2) ;;; assert_ (Nat.eqb (length (gy Q0)) 2) ;;;
  assert_ (Nat.eqb (length (gx Q1)) 2) ;;; assert_ (Nat.eqb (length (gy Q1)) 2) ;;;
  y1_minus_y2 <- vec_sub_no_carry (gy Q0) (gy Q1) ;;
  x2_minus_x1 <- vec_sub_no_carry (gx Q1) (gx Q0) ;;
  x1y2 <- mul2_nc (gx Q0) (gy Q1) ;;
  x2y1 <- mul2_nc (gx Q1) (gy Q0) ;;
  out3 <- vec_fp_mul_no_carry ch y1_minus_y2 (px P) ;;
  out2 <- vec_fp_mul_no_carry ch x2_minus_x1 (py P) ;;
  out5 <- vec_sub_no_carry x1y2 x2y1 ;;
  mapM carry_opt [None; None; Some out2; Some out3; None; Some out5].
(** pairing.rs:64-95 [sparse_line_function_equal] *)
Definition sparse_line_function_equal (Q : g2pt) (P : ecpt) : M (list (option vec)) :=
  assert_ (Nat.eqb (length (gx Q)) 2) ;;; assert_ (Nat.eqb (length (gy Q)) 2) ;;;
  x_sq <- mul2 (gx Q) (gx Q) ;;
  x_cube <- mul2_nc x_sq (gx Q) ;;
  three_x_cu <- vec_scalar_mul_no_carry x_cube 3 ;;
  y_sq <- mul2_nc (gy Q) (gy Q) ;;
  two_y_sq <- vec_scalar_mul_no_carry y_sq 2 ;;
  out0_left <- vec_sub_no_carry three_x_cu two_y_sq ;;
  out0 <- mul_no_carry_w6 xi0 out0_left ;;
  x_sq_Px <- vec_fp_mul_no_carry ch x_sq (px P) ;;
  out4 <- vec_scalar_mul_no_carry x_sq_Px (-3) ;;
  y_Py <- vec_fp_mul_no_carry ch (gy Q) (py P) ;;
  out3 <- vec_scalar_mul_no_carry y_Py 2 ;;
  mapM carry_opt [Some out0; None; None; Some out3; Some out4; None].

(** * Sparse multiplication *)
(** pairing.rs:113-129, one iteration of the nested loops *)
Definition sparse_step (a2 : list vec) (b : list (option vec)) (prod : list (option vec)) (ij : nat * nat) : M (list (option vec)) :=
  let '(i, j) := ij in
  old <- lift (nth_error prod (i + j)) ;;
  ai <- lift (nth_error a2 i) ;;
  bj <- lift (nth_error b j) ;;
  new <- match old, bj with
         | a, None => ret a
         | None, Some b => ab <- mul2_nc ai b ;; ret (Some ab)
         | Some a, Some c => bc <- mul2_nc ai c ;; out <- vec_add_no_carry a bc ;; ret (Some out)
         end ;;
  ret (set_nth prod (i + j) new).
(** pairing.rs:131-148, coefficient [i] of the result before the carry *)
Definition sparse_coeff (prod : list (option vec)) (i : nat) : M vec :=
  if Nat.eqb i 5 then o <- lift (nth_error prod i) ;; lift o
  else
    hi <- lift (nth_error prod (i + 6)) ;;
    eval_w6 <- match hi with None => ret None | Some a => x <- mul_no_carry_w6 xi0 a ;; ret (Some x) end ;;
    lo <- lift (nth_error prod i) ;;
    match lo, eval_w6 with
    | None, b => lift b
    | Some a, None => ret a
    | Some a, Some b => vec_add_no_carry a b
    end.
(** pairing.rs:99-158 [sparse_fp12_multiply] *)
Definition sparse_fp12_multiply (a : vec) (b : list (option vec)) : M vec :=
  assert_ (Nat.eqb (length a) 12) ;;; assert_ (Nat.eqb (length b) 6) ;;;
  a2 <- mapM (fun i => x <- lift (nth_error a i) ;; y <- lift (nth_error a (i + 6)) ;; ret [x; y]) (seq 0 6) ;;
  prod <- foldM (sparse_step a2 b) (list_prod (seq 0 6) (seq 0 6)) (repeat None 11) ;;
  out <- mapM (fun i => c <- sparse_coeff prod i ;; vec_carry_mod lb ch c) (seq 0 6) ;;
  fp2s_coeffs out.
(** pairing.rs:166-175 [fp12_multiply_with_line_unequal] *)
Definition fp12_multiply_with_line_unequal (g : vec) (Q0 Q1 : g2pt) (P : ecpt) : M vec :=
  line <- sparse_line_function_unequal Q0 Q1 P ;; sparse_fp12_multiply g line.
(** pairing.rs:183-192 [fp12_multiply_with_line_equal] *)
Definition fp12_multiply_with_line_equal (g : vec) (Q : g2pt) (P : ecpt) : M vec :=
  line <- sparse_line_function_equal Q P ;; sparse_fp12_multiply g line.

(** * Frobenius on the twist *)
(** pairing.rs:401-419 [twisted_frobenius] *)
Definition twisted_frobenius (Q : g2pt) (c2 c3 : vec) : M g2pt :=
  assert_ (Nat.eqb (length c2) 2) ;;; assert_ (Nat.eqb (length c3) 2) ;;;
  frob_x <- fp2_conjugate lb ch (gx Q) ;;
  frob_y <- fp2_conjugate lb ch (gy Q) ;;
  out_x <- mul2 c2 frob_x ;;
  out_y <- mul2 c3 frob_y ;;
  ret (mkG2 out_x out_y).
(** pairing.rs:427-445 [neg_twisted_frobenius] *)
Definition neg_twisted_frobenius (Q : g2pt) (c2 c3 : vec) : M g2pt :=
  assert_ (Nat.eqb (length c2) 2) ;;; assert_ (Nat.eqb (length c3) 2) ;;;
  frob_x <- fp2_conjugate lb ch (gx Q) ;;
  neg_frob_y <- fp2_neg_conjugate lb ch (gy Q) ;;
  out_x <- mul2 c2 frob_x ;;
  out_y <- mul2 c3 neg_frob_y ;;
  ret (mkG2 out_x out_y).
(** pairing.rs:280-285, 376-381: the constants [coeff[1][2]], [coeff[1][3]] *)
Definition load_c2_c3 : M (vec * vec) :=
  c <- lift (nth_error ftab 1) ;;
  let c2 := x2_mul c c in
  let c3 := x2_mul c2 c in
  v2 <- vec_load_constant m ch [fst c2; snd c2] ;;
  v3 <- vec_load_constant m ch [fst c3; snd c3] ;;
  ret (v2, v3).

(** * Miller loop *)
(** pairing.rs:230-250, 317-337: a sparse element as an Fp12 element *)
Definition sparse_to_fp12 (s : list (option vec)) : M vec :=
  zero_fp <- fp_load_constant m ch F0 ;;
  let coeff i (c : option vec) : M crt := match c with Some v => lift (nth_error v i) | None => ret zero_fp end in
  x0 <- mapM (coeff 0%nat) s ;;
  x1 <- mapM (coeff 1%nat) s ;;
  ret (x0 ++ x1).
(** pairing.rs:260-273: the part of an iteration that depends on the digit *)
Definition miller_digit (Q neg_Q : g2pt) (P : ecpt) (st : vec * g2pt) (d : Z) : M (vec * g2pt) :=
  let '(f, R) := st in
  R <- g2_double R ;;
  assert_ (Z.leb d 1 && Z.leb (-1) d) ;;;
  if Z.eqb d 0 then ret (f, R)
  else
    let sign_Q := if Z.eqb d 1 then Q else neg_Q in
    f <- fp12_multiply_with_line_unequal f R sign_Q P ;;
    R <- g2_add_unequal R sign_Q ;;
    ret (f, R).
(** pairing.rs:255-278: a whole iteration *)
Definition miller_step (Q neg_Q : g2pt) (P : ecpt) (st : vec * g2pt) (d : Z) : M (vec * g2pt) :=
  let '(f, R) := st in
  f_sq <- mul12 f f ;;
  f <- fp12_multiply_with_line_equal f_sq R P ;;
  miller_digit Q neg_Q P (f, R) d.
(** pairing.rs:287-291, 384-389: the two line functions after the loop *)
Definition miller_end (Q : g2pt) (P : ecpt) (c2 c3 : vec) (f : vec) (R : g2pt) : M vec :=
  Q_1 <- twisted_frobenius Q c2 c3 ;;
  neg_Q_2 <- neg_twisted_frobenius Q_1 c2 c3 ;;
  f <- fp12_multiply_with_line_unequal f R Q_1 P ;;
  R <- g2_add_unequal R Q_1 ;;
  fp12_multiply_with_line_unequal f R neg_Q_2 P.
(** pairing.rs:212-294 [miller_loop_BN]; [enc] is [pseudo_binary_encoding], least significant digit first. A list without non-zero digit and one whose only
    non-zero digit is the first underflow [i] (a panic, or an index out of range in release builds) *)
Definition miller_loop_BN (Q : g2pt) (P : ecpt) (enc : list Z) : M vec :=
  match drop_zeros (rev enc) with
  | [] => panic
  | d :: rest =>
      neg_Q <- g2_negate Q ;;
      assert_ (Z.eqb d 1 || Z.eqb d (-1)) ;;;
      let R := if Z.eqb d 1 then Q else neg_Q in
      match rest with
      | [] => panic
      | d1 :: rest =>
          sparse_f <- sparse_line_function_equal R P ;;
          assert_ (Nat.eqb (length sparse_f) 6) ;;;
          f <- sparse_to_fp12 sparse_f ;;
          st <- miller_digit Q neg_Q P (f, R) d1 ;;
          st <- foldM (miller_step Q neg_Q P) rest st ;;
          cs <- load_c2_c3 ;;
          miller_end Q P (fst cs) (snd cs) (fst st) (snd st)
      end
  end.

(** the multi Miller loop keeps, per pair [(a, b)], the running point [r] and [-b] *)
Definition mentry : Type := (ecpt * g2pt * g2pt)%type.
(** pairing.rs:352-354 *)
Definition multi_double (rs : list g2pt) : M (list g2pt) := mapM g2_double rs.
(** pairing.rs:348-351: all tangents *)
Definition multi_lines_equal (f : vec) (rs : list g2pt) (es : list mentry) : M vec :=
  foldM (fun f re => fp12_multiply_with_line_equal f (fst re) (fst (fst (snd re)))) (combine rs es) f.
(** pairing.rs:352-369 *)
Definition multi_digit (es : list mentry) (st : vec * list g2pt) (d : Z) : M (vec * list g2pt) :=
  let '(f, rs) := st in
  rs <- multi_double rs ;;
  assert_ (Z.leb d 1 && Z.leb (-1) d) ;;;
  if Z.eqb d 0 then ret (f, rs)
  else
    foldM (fun (st : vec * list g2pt) re =>
             let '(f, out) := st in
             let '(r, (a, b, neg_b)) := re in
             let sign_b := if Z.eqb d 1 then b else neg_b in
             f <- fp12_multiply_with_line_unequal f r sign_b a ;;
             r <- g2_add_unequal r sign_b ;;
             ret (f, out ++ [r])) (combine rs es) (f, []).
(** pairing.rs:345-374 *)
Definition multi_step (es : list mentry) (st : vec * list g2pt) (d : Z) : M (vec * list g2pt) :=
  let '(f, rs) := st in
  f <- mul12 f f ;;
  f <- multi_lines_equal f rs es ;;
  multi_digit es (f, rs) d.
(** pairing.rs:298-392 [multi_miller_loop_BN] *)
Definition multi_miller_loop_BN (pairs : list (ecpt * g2pt)) (enc : list Z) : M vec :=
  match drop_zeros (rev enc) with
  | [] => panic
  | d :: rest =>
      assert_ (Z.eqb d 1) ;;;
      neg_b <- mapM (fun ab => g2_negate (snd ab)) pairs ;;
      let es := map (fun x : (ecpt * g2pt) * g2pt => (fst (fst x), snd (fst x), snd x)) (combine pairs neg_b) in
      match pairs with
      | [] => panic
      | (a0, b0) :: pairs' =>
          sparse_f <- sparse_line_function_equal b0 a0 ;;
          assert_ (Nat.eqb (length sparse_f) 6) ;;;
          f <- sparse_to_fp12 sparse_f ;;
          f <- foldM (fun f ab => fp12_multiply_with_line_equal f (snd ab) (fst ab)) pairs' f ;;
          match rest with
          | [] => panic
          | d1 :: rest =>
              st <- multi_digit es (f, map snd pairs) d1 ;;
              st <- foldM (multi_step es) rest st ;;
              cs <- load_c2_c3 ;;
              foldM (fun f (re : g2pt * mentry) => let '(r, (a, b, _)) := re in miller_end b a (fst cs) (snd cs) f r) (combine (snd st) es) (fst st)
          end
      end
  end.

(** * [PairingChip]; [enc] is halo2curves' [SIX_U_PLUS_2_NAF], [bx] the constant BN_X of final_exp.rs *)
Variables (naf : list Z) (bx : Z).
(** pairing.rs:506-516 [pairing] *)
Definition pairing (Q : g2pt) (P : ecpt) : M vec :=
  f0 <- miller_loop_BN Q P naf ;; final_exp lb m ch xi0 ftab hint2 hint12 bx f0.
(** pairing.rs:525-540 [pairing_check] *)
Definition pairing_check (Q : g2pt) (P : ecpt) (T : g2pt) (S : ecpt) : M unit :=
  negated_P <- ecc_negate lb ch P ;;
  mml <- multi_miller_loop_BN [(negated_P, Q); (S, T)] naf ;;
  fe <- final_exp lb m ch xi0 ftab hint2 hint12 bx mml ;;
  one <- vec_load_constant m ch (x12_1 (m:=m)) ;;
  vec_assert_equal lb ch fe one.
End Pairing.
