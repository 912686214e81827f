(** Model of halo2-ecc/src/fields/{vector,fp2,fp12}.rs over [FpChip]: [FieldVectorChip], [Fp2Chip], [Fp12Chip].
    A [FieldVector] (vector.rs:16-19) is the list of its coordinates; the conversions between [UnsafeFieldPoint], [FieldPoint] and
    [ReducedFieldPoint] (vector.rs:41-60) are transparent here as in FpChip.v. *)
From Coq Require Import ZArith Lia List Bool.
From Verif Require Import Field Context Utils Gate Range BigInt FpChip.
Import ListNotations.
Local Open Scope Z_scope.
Local Open Scope monad_scope.

(** itertools' [zip_eq]: panics unless both iterators have the same length (any panic aborts the whole computation, so when it happens does not matter) *)
Definition zip_eq {A B} (a : list A) (b : list B) : option (list (A * B)) :=
  if Nat.eqb (length a) (length b) then Some (combine a b) else None.

Section FieldExt.
Context {p : positive} (lb : nat) (m : positive) (ch : fpchip p).
Notation Fp := (F p).
Notation Fm := (F m).
Notation M := (M p).
Notation AV := (AV p).
Notation crt := (crt p).
Notation vec := (list crt).

(** * [FieldVectorChip] *)
(** vector.rs:89-102 [fp_mul_no_carry] *)
Definition vec_fp_mul_no_carry (a : vec) (x : crt) : M vec := mapM (fun c => fp_mul_no_carry ch c x) a.
(** the shape [a.zip_eq(b).map(|(a, b)| op(a, b)).collect()] of vector.rs:104-117, 142-155, 157-174, 176-189, 211-228 *)
Definition vzip {A B C} (op : A -> B -> M C) (a : list A) (b : list B) : M (list C) :=
  l <- lift (zip_eq a b) ;; mapM (fun xy => op (fst xy) (snd xy)) l.
(** vector.rs:104-117 [select] *)
Definition vec_select (a b : vec) (sel : AV) : M vec := vzip (fun x y => fp_select x y sel) a b.
(** vector.rs:119-128 [load_private]; the argument is the list [fe.coeffs()] *)
Definition vec_load_private (fe : list Fm) : M vec := mapM (fp_load_private lb m ch) fe.
(** vector.rs:130-139 [load_constant] *)
Definition vec_load_constant (c : list Fm) : M vec := mapM (fp_load_constant m ch) c.
(** vector.rs:142-155 [add_no_carry] *)
Definition vec_add_no_carry (a b : vec) : M vec := vzip fp_add_no_carry a b.
(** vector.rs:157-174 [add_constant_no_carry] *)
Definition vec_add_constant_no_carry (a : vec) (c : list Fm) : M vec := vzip (fp_add_constant_no_carry m ch) a c.
(** vector.rs:176-189 [sub_no_carry] *)
Definition vec_sub_no_carry (a b : vec) : M vec := vzip fp_sub_no_carry a b.
(** vector.rs:191-197 [negate] *)
Definition vec_negate (a : vec) : M vec := mapM (fp_negate lb ch) a.
(** vector.rs:199-209 [scalar_mul_no_carry] *)
Definition vec_scalar_mul_no_carry (a : vec) (c : Z) : M vec := mapM (fun x => fp_scalar_mul_no_carry x c) a.
(** vector.rs:211-228 [scalar_mul_and_add_no_carry] *)
Definition vec_scalar_mul_and_add_no_carry (a b : vec) (c : Z) : M vec := vzip (fun x y => fp_scalar_mul_and_add_no_carry x y c) a b.
(** vector.rs:230-238 [check_carry_mod_to_zero] *)
Definition vec_check_carry_mod_to_zero (a : vec) : M unit := iterM (fp_check_carry_mod_to_zero lb ch) a.
(** vector.rs:240-246 [carry_mod] *)
Definition vec_carry_mod (a : vec) : M vec := mapM (fp_carry_mod lb ch) a.
(** vector.rs:251-262 [range_check] *)
Definition vec_range_check (a : vec) (max_bits : nat) : M unit := iterM (fun c => fp_range_check lb ch c max_bits) a.
(** vector.rs:264-270 [enforce_less_than] *)
Definition vec_enforce_less_than (a : vec) : M vec := mapM (fp_enforce_less_than lb ch) a.
(** the loop shared by vector.rs:272-342: test each coordinate and combine with the running result, [prev.unwrap()] at the end *)
Definition fold_test {A} (test : A -> M AV) (op : qcell p -> qcell p -> M AV) (a : list A) : M AV :=
  r <- foldM (fun prev x =>
                c <- test x ;;
                match prev with
                | Some q => new <- op (Existing c) (Existing q) ;; ret (Some new)
                | None => ret (Some c)
                end) a None ;;
  lift r.
(** vector.rs:272-288 [is_soft_zero] *)
Definition vec_is_soft_zero (a : vec) : M AV := fold_test fp_is_soft_zero and a.
(** vector.rs:290-306 [is_soft_nonzero] *)
Definition vec_is_soft_nonzero (a : vec) : M AV := fold_test (fp_is_soft_nonzero lb ch) or a.
(** vector.rs:308-324 [is_zero] *)
Definition vec_is_zero (a : vec) : M AV := fold_test (fp_is_zero lb ch) and a.
(** vector.rs:326-342 [is_equal_unenforced] *)
Definition vec_is_equal_unenforced (a b : vec) : M AV :=
  l <- lift (zip_eq a b) ;; fold_test (fun xy => fp_is_equal_unenforced (fst xy) (snd xy)) and l.
(** vector.rs:344-353 [assert_equal]: plain [zip], which stops at the shorter argument *)
Definition vec_assert_equal (a b : vec) : M unit := iterM (fun xy => fp_assert_equal lb ch (fst xy) (snd xy)) (combine a b).

(** * Default methods of [FieldChip] (fields/mod.rs) at an extension field, through [impl_field_ext_chip_common!] (vector.rs:356-496).
    [mul_nc] is the chip's [mul_no_carry]; [deg] its degree; [quot] computes [a_val * b_val.invert().unwrap_or_default()] on coefficient lists. *)
Section Defaults.
Variables (deg : nat) (mul_nc : vec -> vec -> M vec) (quot negquot : list Fm -> list Fm -> list Fm).
(** fields/mod.rs:176-186 [is_equal] *)
Definition vec_is_equal (a b : vec) : M AV :=
  a <- vec_enforce_less_than a ;; b <- vec_enforce_less_than b ;; vec_is_equal_unenforced a b.
(** fields/mod.rs:65-72 [load_private_reduced] *)
Definition vec_load_private_reduced (fe : list Fm) : M vec := c <- vec_load_private fe ;; vec_enforce_less_than c.
(** fp2.rs:84-89, fp12.rs:133-137 [get_assigned_value] *)
Definition vec_value (x : vec) : option (list Fm) :=
  if Nat.eqb (length x) deg then
    (fix go (l : vec) := match l with
                         | [] => Some []
                         | c :: l => match get_assigned_value m ch c, go l with Some v, Some vs => Some (v :: vs) | _, _ => None end
                         end) x
  else None.
(** fields/mod.rs:189-197 [mul] *)
Definition ext_mul (a b : vec) : M vec := c <- mul_nc a b ;; vec_carry_mod c.
(** fields/mod.rs:218-239 [divide_unsafe] *)
Definition ext_divide_unsafe (a b : vec) : M vec :=
  av <- lift (vec_value a) ;;
  bv <- lift (vec_value b) ;;
  q <- vec_load_private (quot av bv) ;;
  qb <- mul_nc q b ;;
  c <- vec_sub_no_carry qb a ;;
  vec_check_carry_mod_to_zero c ;;;
  ret q.
(** fields/mod.rs:200-211 [divide] *)
Definition ext_divide (a b : vec) : M vec :=
  z <- vec_is_zero b ;;
  assert_is_const z F0 ;;;
  ext_divide_unsafe a b.
(** fields/mod.rs:257-278 [neg_divide_unsafe] *)
Definition ext_neg_divide_unsafe (a b : vec) : M vec :=
  av <- lift (vec_value a) ;;
  bv <- lift (vec_value b) ;;
  q <- vec_load_private (negquot av bv) ;;
  qb <- mul_nc q b ;;
  c <- vec_add_no_carry qb a ;;
  vec_check_carry_mod_to_zero c ;;;
  ret q.
(** fields/mod.rs:242-253 [neg_divide] *)
Definition ext_neg_divide (a b : vec) : M vec :=
  z <- vec_is_zero b ;;
  assert_is_const z F0 ;;;
  ext_neg_divide_unsafe a b.
End Defaults.

(** * [Fp2Chip] *)
(** fp2.rs:30-37, fp12.rs:37-44 [new]: the modulus must be 3 mod 4 *)
Definition ext_new_ok : bool := Z.eqb (modulus (p:=m) mod 4) 3.
(** fp2.rs:43-53 [conjugate] *)
Definition fp2_conjugate (a : vec) : M vec :=
  match a with
  | [a0; a1] => n <- fp_negate lb ch a1 ;; ret [a0; n]
  | _ => panic
  end.
(** fp2.rs:55-64 [neg_conjugate] *)
Definition fp2_neg_conjugate (a : vec) : M vec :=
  match a with
  | [a0; a1] => n <- fp_negate lb ch a0 ;; ret [n; a1]
  | _ => panic
  end.
(** fp2.rs:91-114 [mul_no_carry]: the two nested loops push [a0b0, a0b1, a1b0, a1b1] *)
Definition fp2_mul_no_carry (a b : vec) : M vec :=
  assert_ (Nat.eqb (length a) 2) ;;;
  assert_ (Nat.eqb (length b) 2) ;;;
  ab <- mapM (fun xy => fp_mul_no_carry ch (fst xy) (snd xy)) (list_prod a b) ;;
  c0 <- lift (nth_error ab 0) ;; c1 <- lift (nth_error ab 1) ;; c2 <- lift (nth_error ab 2) ;; c3 <- lift (nth_error ab 3) ;;
  d <- fp_sub_no_carry c0 c3 ;;
  s <- fp_add_no_carry c1 c2 ;;
  ret [d; s].

(** * [Fp12Chip]; [xi0] is the const generic [XI_0] *)
(** fp12.rs:50-77 [fp2_mul_no_carry] *)
Definition fp12_fp2_mul_no_carry (a b : vec) : M vec :=
  assert_ (Nat.eqb (length a) 12) ;;;
  assert_ (Nat.eqb (length b) 2) ;;;
  b0 <- lift (nth_error b 0) ;; b1 <- lift (nth_error b 1) ;;
  lo <- mapM (fun i => ai <- lift (nth_error a i) ;; ai6 <- lift (nth_error a (i + 6)) ;;
                       c1 <- fp_mul_no_carry ch ai b0 ;; c2 <- fp_mul_no_carry ch ai6 b1 ;; fp_sub_no_carry c1 c2) (seq 0 6) ;;
  hi <- mapM (fun i => ai <- lift (nth_error a i) ;; ai6 <- lift (nth_error a (i + 6)) ;;
                       c1 <- fp_mul_no_carry ch ai6 b0 ;; c2 <- fp_mul_no_carry ch ai b1 ;; fp_add_no_carry c1 c2) (seq 0 6) ;;
  ret (lo ++ hi).
(** fp12.rs:79-93 [conjugate] *)
Definition fp12_conjugate (a : vec) : M vec :=
  assert_ (Nat.eqb (length a) 12) ;;;
  mapM (fun ic => if Nat.even (fst ic) then ret (snd ic) else fp_negate lb ch (snd ic)) (combine (seq 0 (length a)) a).
(** fp12.rs:100-112 [mul_no_carry_w6] *)
Definition mul_no_carry_w6 (xi0 : Z) (a : vec) : M vec :=
  match a with
  | [a0; a1] =>
      x <- fp_scalar_mul_no_carry a0 xi0 ;;
      o0 <- fp_sub_no_carry x a1 ;;
      o1 <- fp_scalar_mul_and_add_no_carry a1 a0 xi0 ;;
      ret [o0; o1]
  | _ => panic
  end.
(** [coeffs[i + j] = add_no_carry(coeffs[i + j], c)] or [coeffs.push(c)] of fp12.rs:165-175, for one of the four accumulators *)
Fixpoint set_nth {A} (l : list A) (i : nat) (x : A) : list A :=
  match l, i with
  | [], _ => []
  | _ :: l, O => x :: l
  | y :: l, S i => y :: set_nth l i x
  end.
Definition acc_add (acc : vec) (t : nat) (c : crt) : M vec :=
  old <- lift (nth_error acc t) ;; s <- fp_add_no_carry old c ;; ret (set_nth acc t s).
(** fp12.rs:158-177, one iteration of the nested loops; the branch looks at the first accumulator's length *)
Definition fp12_step (a b : vec) (st : vec * vec * vec * vec) (ij : nat * nat) : M (vec * vec * vec * vec) :=
  let '(x00, x01, x10, x11) := st in
  let '(i, j) := ij in
  ai <- lift (nth_error a i) ;; ai6 <- lift (nth_error a (i + 6)) ;;
  bj <- lift (nth_error b j) ;; bj6 <- lift (nth_error b (j + 6)) ;;
  c00 <- fp_mul_no_carry ch ai bj ;;
  c01 <- fp_mul_no_carry ch ai bj6 ;;
  c10 <- fp_mul_no_carry ch ai6 bj ;;
  c11 <- fp_mul_no_carry ch ai6 bj6 ;;
  if Nat.ltb (i + j) (length x00) then
    x00 <- acc_add x00 (i + j) c00 ;; x01 <- acc_add x01 (i + j) c01 ;; x10 <- acc_add x10 (i + j) c10 ;; x11 <- acc_add x11 (i + j) c11 ;;
    ret (x00, x01, x10, x11)
  else ret (x00 ++ [c00], x01 ++ [c01], x10 ++ [c10], x11 ++ [c11]).
(** fp12.rs:140-217 [mul_no_carry] *)
Definition fp12_mul_no_carry (xi0 : Z) (a b : vec) : M vec :=
  assert_ (Nat.eqb (length a) 12) ;;;
  assert_ (Nat.eqb (length b) 12) ;;;
  st <- foldM (fp12_step a b) (list_prod (seq 0 6) (seq 0 6)) ([], [], [], []) ;;
  let '(x00, x01, x10, x11) := st in
  (* fp12.rs:179-187 *)
  ms <- mapM (fun i =>
                y00 <- lift (nth_error x00 i) ;; y11 <- lift (nth_error x11 i) ;; d <- fp_sub_no_carry y00 y11 ;;
                y01 <- lift (nth_error x01 i) ;; y10 <- lift (nth_error x10 i) ;; s <- fp_add_no_carry y01 y10 ;;
                ret (d, s)) (seq 0 11) ;;
  let dm := map fst ms in
  let sm := map snd ms in
  (* fp12.rs:189-204 *)
  lo <- mapM (fun i =>
                if Nat.ltb i 5 then
                  d6 <- lift (nth_error dm (i + 6)) ;; d <- lift (nth_error dm i) ;; s6 <- lift (nth_error sm (i + 6)) ;;
                  c <- fp_scalar_mul_and_add_no_carry d6 d xi0 ;;
                  fp_sub_no_carry c s6
                else lift (nth_error dm i)) (seq 0 6) ;;
  (* fp12.rs:205-215 *)
  hi <- mapM (fun i =>
                if Nat.ltb i 5 then
                  s <- lift (nth_error sm i) ;; d6 <- lift (nth_error dm (i + 6)) ;; s6 <- lift (nth_error sm (i + 6)) ;;
                  c <- fp_add_no_carry s d6 ;;
                  fp_scalar_mul_and_add_no_carry s6 c xi0
                else lift (nth_error sm i)) (seq 0 6) ;;
  ret (lo ++ hi).
End FieldExt.
