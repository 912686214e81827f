(** Model of halo2-ecc/src/ecc/mod.rs over [FpChip] (the [FieldChip] instance of [BaseFieldEccChip]): short Weierstrass
    curves [y^2 = x^3 + b]. Points that the code draws from an entropy source are parameters here (every value of them
    is covered). [StrictEcPoint] (mod.rs:60-66) wraps the same two field points; the wrapper is kept only where the code
    branches on it ([comparable]). *)
From Coq Require Import ZArith Lia List Bool.
From Verif Require Import Field Context Utils Gate Range BigInt FpChip SafeTypes.
Import ListNotations.
Local Open Scope Z_scope.
Local Open Scope monad_scope.

(** mod.rs:26-31 [EcPoint] *)
Record ecpt {p : positive} := mkPt { px : crt p; py : crt p }.
Arguments ecpt : clear implicits.
Arguments mkPt {p} px py.
Arguments px {p} e.
Arguments py {p} e.
(** mod.rs:90-95 [ComparableEcPoint] *)
Inductive comparable {p : positive} := Strict (P : ecpt p) | NonStrict (P : ecpt p).
Arguments comparable : clear implicits.
Arguments Strict {p} P.
Arguments NonStrict {p} P.
(** mod.rs:126-135 [From<ComparableEcPoint> for EcPoint] *)
Definition cpt {p} (P : comparable p) : ecpt p := match P with Strict P => P | NonStrict P => P end.

Section Ecc.
Context {p : positive} (lb : nat) (m : positive).
Notation Fp := (F p).
Notation M := (M p).
Notation AV := (AV p).
Notation crt := (crt p).
Notation ecpt := (ecpt p).
Notation comparable := (comparable p).
Variable ch : fpchip p.

(** mod.rs:194-197: the x-coordinate of a point, reduced if it was not known to be *)
Definition strict_x (P : comparable) : M crt :=
  match P with Strict P => ret (px P) | NonStrict P => fp_enforce_less_than lb ch (px P) end.
(** mod.rs:186-207 [check_points_are_unequal] *)
Definition check_points_are_unequal (P Q : comparable) (do_check : bool) : M (ecpt * ecpt) :=
  (if do_check then
     x1 <- strict_x P ;;
     x2 <- strict_x Q ;;
     x_is_equal <- fp_is_equal_unenforced x1 x2 ;;
     assert_is_const x_is_equal F0
   else ret tt) ;;;
  ret (cpt P, cpt Q).
(** mod.rs:165-181 and 237-251: from the slope to the sum; both functions end with this same text *)
Definition line_out (lambda : crt) (P Q : ecpt) : M ecpt :=
  lambda_sq <- fp_mul_no_carry ch lambda lambda ;;
  lambda_sq_minus_px <- fp_sub_no_carry lambda_sq (px P) ;;
  x_3_no_carry <- fp_sub_no_carry lambda_sq_minus_px (px Q) ;;
  x_3 <- fp_carry_mod lb ch x_3_no_carry ;;
  dx_13 <- fp_sub_no_carry (px P) x_3 ;;
  lambda_dx_13 <- fp_mul_no_carry ch lambda dx_13 ;;
  y_3_no_carry <- fp_sub_no_carry lambda_dx_13 (py P) ;;
  y_3 <- fp_carry_mod lb ch y_3_no_carry ;;
  ret (mkPt x_3 y_3).
(** mod.rs:150-182 [ec_add_unequal] *)
Definition ec_add_unequal (P Q : comparable) (is_strict : bool) : M ecpt :=
  PQ <- check_points_are_unequal P Q is_strict ;;
  let '(P, Q) := PQ in
  dx <- fp_sub_no_carry (px Q) (px P) ;;
  dy <- fp_sub_no_carry (py Q) (py P) ;;
  lambda <- fp_divide_unsafe lb m ch dy dx ;;
  line_out lambda P Q.
(** mod.rs:223-252 [ec_sub_unequal] *)
Definition ec_sub_unequal (P Q : comparable) (is_strict : bool) : M ecpt :=
  PQ <- check_points_are_unequal P Q is_strict ;;
  let '(P, Q) := PQ in
  dx <- fp_sub_no_carry (px Q) (px P) ;;
  sy <- fp_add_no_carry (py Q) (py P) ;;
  lambda <- fp_neg_divide_unsafe lb m ch sy dx ;;
  line_out lambda P Q.
(** mod.rs:402-415 [ec_select] *)
Definition ec_select (P Q : ecpt) (sel : AV) : M ecpt :=
  rx <- fp_select (px P) (px Q) sel ;;
  ry <- fp_select (py P) (py Q) sel ;;
  ret (mkPt rx ry).
(** mod.rs:259-296 [ec_sub_strict]; [rand_x], [rand_y] are the random field elements of line 287 *)
Definition ec_sub_strict (rand_x rand_y : F m) (P Q : ecpt) : M ecpt :=
  x_is_eq <- fp_is_equal lb ch (px P) (px Q) ;;
  y_is_eq <- fp_is_equal lb ch (py P) (py Q) ;;
  is_identity <- and (Existing x_is_eq) (Existing y_is_eq) ;;
  constrain_equal x_is_eq is_identity ;;;
  rx <- fp_load_private lb m ch rand_x ;;
  ry <- fp_load_private lb m ch rand_y ;;
  P' <- ec_select (mkPt rx ry) P is_identity ;;
  out <- ec_sub_unequal (NonStrict P') (NonStrict Q) false ;;
  zero <- fp_load_constant m ch F0 ;;
  ec_select (mkPt zero zero) out is_identity.
(** mod.rs:312-338 [ec_double] *)
Definition ec_double (P : ecpt) : M ecpt :=
  two_y <- fp_scalar_mul_no_carry (py P) 2 ;;
  three_x <- fp_scalar_mul_no_carry (px P) 3 ;;
  three_x_sq <- fp_mul_no_carry ch three_x (px P) ;;
  lambda <- fp_divide_unsafe lb m ch three_x_sq two_y ;;
  lambda_sq <- fp_mul_no_carry ch lambda lambda ;;
  two_x <- fp_scalar_mul_no_carry (px P) 2 ;;
  x_3_no_carry <- fp_sub_no_carry lambda_sq two_x ;;
  x_3 <- fp_carry_mod lb ch x_3_no_carry ;;
  dx <- fp_sub_no_carry (px P) x_3 ;;
  lambda_dx <- fp_mul_no_carry ch lambda dx ;;
  y_3_no_carry <- fp_sub_no_carry lambda_dx (py P) ;;
  y_3 <- fp_carry_mod lb ch y_3_no_carry ;;
  ret (mkPt x_3 y_3).
(** mod.rs:353-399 [ec_double_and_add_unequal], after the first comparison *)
Definition daa_body (x_0 : option crt) (P Q : ecpt) (is_strict : bool) : M ecpt :=
  dx <- fp_sub_no_carry (px Q) (px P) ;;
  dy <- fp_sub_no_carry (py Q) (py P) ;;
  lambda_0 <- fp_divide_unsafe lb m ch dy dx ;;
  lambda_0_sq <- fp_mul_no_carry ch lambda_0 lambda_0 ;;
  lambda_0_sq_minus_x_0 <- fp_sub_no_carry lambda_0_sq (px P) ;;
  x_2_no_carry <- fp_sub_no_carry lambda_0_sq_minus_x_0 (px Q) ;;
  x_2 <- fp_carry_mod lb ch x_2_no_carry ;;
  (if is_strict then
     x_2' <- fp_enforce_less_than lb ch x_2 ;;
     x0 <- lift x_0 ;;
     x_is_equal <- fp_is_equal_unenforced x0 x_2' ;;
     assert_is_const x_is_equal F0
   else ret tt) ;;;
  two_y_0 <- fp_scalar_mul_no_carry (py P) 2 ;;
  x_2_minus_x_0 <- fp_sub_no_carry x_2 (px P) ;;
  lambda_1_minus_lambda_0 <- fp_divide_unsafe lb m ch two_y_0 x_2_minus_x_0 ;;
  lambda_1_no_carry <- fp_add_no_carry lambda_0 lambda_1_minus_lambda_0 ;;
  lambda_1_sq_nc <- fp_mul_no_carry ch lambda_1_no_carry lambda_1_no_carry ;;
  lambda_1_sq_minus_x_0 <- fp_sub_no_carry lambda_1_sq_nc (px P) ;;
  x_res_no_carry <- fp_sub_no_carry lambda_1_sq_minus_x_0 x_2 ;;
  x_res <- fp_carry_mod lb ch x_res_no_carry ;;
  x_res_minus_x_0 <- fp_sub_no_carry x_res (px P) ;;
  lambda_1_x_res_minus_x_0 <- fp_mul_no_carry ch lambda_1_no_carry x_res_minus_x_0 ;;
  y_res_no_carry <- fp_sub_no_carry lambda_1_x_res_minus_x_0 (py P) ;;
  y_res <- fp_carry_mod lb ch y_res_no_carry ;;
  ret (mkPt x_res y_res).
(** mod.rs:342-400 [ec_double_and_add_unequal] *)
Definition ec_double_and_add_unequal (P Q : comparable) (is_strict : bool) : M ecpt :=
  x_0 <- (if is_strict then
            x0 <- strict_x P ;;
            x1 <- strict_x Q ;;
            x_is_equal <- fp_is_equal_unenforced x0 x1 ;;
            assert_is_const x_is_equal F0 ;;;
            ret (Some x0)
          else ret None) ;;
  daa_body x_0 (cpt P) (cpt Q) is_strict.
(** mod.rs:420-440 [ec_select_by_indicator] *)
Definition ec_select_by_indicator (points : list ecpt) (coeffs : list AV) : M ecpt :=
  rx <- fp_select_by_indicator ch (map px points) coeffs ;;
  ry <- fp_select_by_indicator ch (map py points) coeffs ;;
  ret (mkPt rx ry).
(** mod.rs:443-457 [ec_select_from_bits]; 460-476 [strict_ec_select_from_bits] makes the same calls *)
Definition ec_select_from_bits (points : list ecpt) (sel : list AV) : M ecpt :=
  assert_ (Nat.eqb (2 ^ length sel) (length points)) ;;;
  coeffs <- bits_to_indicator sel ;;
  ec_select_by_indicator points coeffs.

(** the curve coefficient [C::b()] *)
Variable b : F m.
(** mod.rs:583-588, 907-912: the left-hand side minus the right-hand side of the curve equation *)
Definition curve_diff (P : ecpt) : M crt :=
  lhs <- fp_mul_no_carry ch (py P) (py P) ;;
  rhs <- fp_mul lb ch (px P) (px P) ;;
  rhs <- fp_mul_no_carry ch rhs (px P) ;;
  rhs <- fp_add_constant_no_carry m ch rhs b ;;
  fp_sub_no_carry lhs rhs.
(** mod.rs:577-590 [check_is_on_curve] *)
Definition check_is_on_curve (P : ecpt) : M unit :=
  diff <- curve_diff P ;;
  fp_check_carry_mod_to_zero lb ch diff.
(** mod.rs:592-608 [load_random_point]; [x], [y] are the coordinates of the random point *)
Definition load_random_point (x y : F m) : M ecpt :=
  cx <- fp_load_private lb m ch x ;;
  cy <- fp_load_private lb m ch y ;;
  check_is_on_curve (mkPt cx cy) ;;;
  ret (mkPt cx cy).
(** mod.rs:610-621 [into_strict_point] *)
Definition into_strict_point (P : ecpt) : M ecpt :=
  x <- fp_enforce_less_than lb ch (px P) ;;
  ret (mkPt x (py P)).

(** mod.rs:670-680: the bits of all scalars, each padded to [rounded_bitlen] *)
Definition msm_bits (scalars : list (list AV)) (max_bits pad : nat) (zero_cell : AV) : M (list AV) :=
  ll <- mapM (fun scalar => chunks <- mapM (fun c => num_to_bits c max_bits) scalar ;;
                            ret (concat chunks ++ repeat zero_cell pad)) scalars ;;
  ret (concat ll).
(** mod.rs:687-692 *)
Fixpoint double_chain (n : nat) (last : ecpt) : M (list ecpt) :=
  match n with
  | O => ret []
  | S n => d <- ec_double last ;; ds <- double_chain n d ;; ret (d :: ds)
  end.
(** mod.rs:715-723: the additions of one point to its cache; [prev] is the last cached point *)
Fixpoint cache_loop (n : nat) (prev point : ecpt) (is_infinity : AV) : M (list ecpt) :=
  match n with
  | O => ret []
  | S n => new_point <- ec_add_unequal (Strict prev) (Strict point) true ;;
           new_point <- ec_select prev new_point is_infinity ;;
           new_point <- into_strict_point new_point ;;
           rest <- cache_loop n new_point point is_infinity ;;
           ret (new_point :: rest)
  end.
(** mod.rs:698-724: the cached points of [P[idx]] *)
Definition cache_point (rand_start_vec : list ecpt) (window_bits : nat) (idx : nat) (point : ecpt) : M (list ecpt) :=
  is_infinity <- fp_is_zero lb ch (py point) ;;
  r1 <- lift (nth_error rand_start_vec idx) ;;
  r2 <- lift (nth_error rand_start_vec (idx + window_bits)) ;;
  neg_mult_rand_start <- ec_sub_unequal (NonStrict r1) (NonStrict r2) true ;;
  point <- into_strict_point point ;;
  neg_mult_rand_start <- into_strict_point neg_mult_rand_start ;;
  rest <- cache_loop (2 ^ window_bits - 1) neg_mult_rand_start point is_infinity ;;
  ret (neg_mult_rand_start :: rest).
(** mod.rs:742-744 *)
Fixpoint double_n (n : nat) (P : ecpt) : M ecpt :=
  match n with O => ret P | S n => P <- ec_double P ;; double_n n P end.
(** mod.rs:745-758: the additions of window [idx]; [bits[lo..hi]] panics unless [lo <= hi <= len] *)
Definition slice {A} (l : list A) (lo hi : nat) : option (list A) :=
  if (Nat.leb lo hi && Nat.leb hi (length l))%bool then Some (firstn (hi - lo) (skipn lo l)) else None.
Definition msm_window (window_bits rounded_bitlen idx : nat) (curr : ecpt) (cb : list ecpt * list AV) : M ecpt :=
  sel <- lift (slice (snd cb) (rounded_bitlen - window_bits * (idx + 1)) (rounded_bitlen - window_bits * idx)) ;;
  add_point <- ec_select_from_bits (fst cb) sel ;;
  ec_add_unequal (NonStrict curr) (NonStrict add_point) true.
Definition msm_round (window_bits rounded_bitlen : nat) (cached : list ecpt) (bits : list AV) (curr : ecpt) (idx : nat) : M ecpt :=
  curr <- double_n window_bits curr ;;
  foldM (msm_window window_bits rounded_bitlen idx) (combine (chunks (2 ^ window_bits) cached) (chunks rounded_bitlen bits)) curr.
(** mod.rs:636-765 [multi_scalar_multiply]. [(ax, ay)] are the coordinates of the random point of line 684, [(rx, ry)] the
    random elements of the final [ec_sub_strict]. The [debug_assert_eq] of line 674 is not modelled (release build). *)
Definition multi_scalar_multiply (ax ay rx ry : F m) (P : list ecpt) (scalars : list (list AV)) (max_bits window_bits : nat) : M ecpt :=
  let k := length P in
  assert_ (Nat.eqb k (length scalars)) ;;;
  assert_ (negb (Nat.eqb k 0)) ;;;
  s0 <- lift (nth_error scalars 0) ;;
  assert_ (negb (Nat.eqb (length s0) 0)) ;;;
  assert_ (Nat.leb max_bits (NUM_BITS p)) ;;;
  let scalar_len := length s0 in
  let total_bits := (max_bits * scalar_len)%nat in
  assert_ (negb (Nat.eqb window_bits 0)) ;;; (* line 659: division by zero, or underflow before it, panics *)
  let num_windows := ((total_bits + window_bits - 1) / window_bits)%nat in
  let rounded_bitlen := (num_windows * window_bits)%nat in
  zero_cell <- load_zero ;;
  rounded_bits <- msm_bits scalars max_bits (rounded_bitlen - total_bits) zero_cell ;;
  base <- load_random_point ax ay ;;
  rest <- double_chain (k + window_bits - 1) base ;;
  let rand_start_vec := base :: rest in
  caches <- mapM (fun ip => cache_point rand_start_vec window_bits (fst ip) (snd ip)) (combine (seq 0 k) P) ;;
  let cached_points := concat caches in
  rk <- lift (nth_error rand_start_vec k) ;;
  r0 <- lift (nth_error rand_start_vec 0) ;;
  start_point <- ec_sub_unequal (NonStrict rk) (NonStrict r0) true ;;
  curr_point <- foldM (msm_round window_bits rounded_bitlen cached_points rounded_bits) (seq 0 num_windows) start_point ;;
  ec_sub_strict rx ry curr_point start_point.
(** mod.rs:492-507 [scalar_multiply] *)
Definition scalar_multiply (ax ay rx ry : F m) (P : ecpt) (scalar : list AV) (max_bits window_bits : nat) : M ecpt :=
  assert_ (negb (Nat.eqb (length scalar) 0)) ;;;
  assert_ (Z.leb (Z.of_nat max_bits) (Z.of_nat (NUM_BITS p))) ;;;
  assert_ (negb (Nat.eqb window_bits 0)) ;;;
  multi_scalar_multiply ax ay rx ry [P] [scalar] max_bits window_bits.

(** ** EccChip *)
(** mod.rs:845-855 [load_private_unchecked] and 870-880 [assign_point_unchecked] (on the coordinates) *)
Definition ecc_load_private_unchecked (x y : F m) : M ecpt :=
  cx <- fp_load_private lb m ch x ;;
  cy <- fp_load_private lb m ch y ;;
  ret (mkPt cx cy).
(** mod.rs:831-842 [load_private] *)
Definition ecc_load_private (x y : F m) : M ecpt :=
  P <- ecc_load_private_unchecked x y ;;
  check_is_on_curve P ;;;
  ret P.
(** mod.rs:899-922 [is_on_curve_or_infinity] *)
Definition is_on_curve_or_infinity (P : ecpt) : M AV :=
  diff <- curve_diff P ;;
  diff <- fp_carry_mod lb ch diff ;;
  is_on_curve <- fp_is_zero lb ch diff ;;
  x_is_zero <- fp_is_zero lb ch (px P) ;;
  y_is_zero <- fp_is_zero lb ch (py P) ;;
  or_and (Existing is_on_curve) (Existing x_is_zero) (Existing y_is_zero).
(** mod.rs:859-868 [assign_point] *)
Definition ecc_assign_point (x y : F m) : M ecpt :=
  P <- ecc_load_private_unchecked x y ;;
  o <- is_on_curve_or_infinity P ;;
  assert_is_const o F1 ;;;
  ret P.
(** mod.rs:882-891 [assign_constant_point] *)
Definition ecc_assign_constant_point (x y : F m) : M ecpt :=
  cx <- fp_load_constant m ch x ;;
  cy <- fp_load_constant m ch y ;;
  ret (mkPt cx cy).
(** mod.rs:924-931 [negate] *)
Definition ecc_negate (P : ecpt) : M ecpt :=
  y <- fp_negate lb ch (py P) ;;
  ret (mkPt (px P) y).
(** mod.rs:965-975 [is_equal] *)
Definition ecc_is_equal (P Q : ecpt) : M AV :=
  x_is_equal <- fp_is_equal lb ch (px P) (px Q) ;;
  y_is_equal <- fp_is_equal lb ch (py P) (py Q) ;;
  and (Existing x_is_equal) (Existing y_is_equal).
(** mod.rs:977-985 [assert_equal] *)
Definition ecc_assert_equal (P Q : ecpt) : M unit :=
  fp_assert_equal lb ch (px P) (px Q) ;;;
  fp_assert_equal lb ch (py P) (py Q).
(** mod.rs:988-1004 [sum]; [(ax, ay)] is the random point *)
Definition ecc_sum (ax ay : F m) (points : list ecpt) : M ecpt :=
  rand_point <- load_random_point ax ay ;;
  rand_point <- into_strict_point rand_point ;;
  acc <- foldM (fun acc point => a <- ec_add_unequal (Strict acc) (NonStrict point) true ;; into_strict_point a) points rand_point ;;
  ec_sub_unequal (Strict acc) (Strict rand_point) true.
End Ecc.

(** ** get_naf (mod.rs:767-808): a pure function on little-endian 64-bit limbs; [None] is a panic *)
Definition u64_max : Z := 2 ^ 64 - 1.
(** lines 775-788: [n] steps on the current limb; returns the digits and the final [e] *)
Fixpoint naf_limb (n : nat) (e : Z) : list Z * Z :=
  match n with
  | O => ([], e)
  | S n =>
      if Z.odd e then
        let z := 2 - e mod 4 in
        let e' := e / 2 + (if z =? -1 then 1 else 0) in
        let '(ds, r) := naf_limb n e' in (z :: ds, r)
      else let '(ds, r) := naf_limb n (e / 2) in (0 :: ds, r)
  end.
(** lines 791-800: add one at the front of the remaining limbs; [true] if a limb was pushed *)
Fixpoint naf_carry (exp : list Z) : list Z * bool :=
  match exp with
  | [] => ([1], true)
  | x :: exp => if x =? u64_max then let '(r, o) := naf_carry exp in (0 :: r, o) else (x + 1 :: exp, false)
  end.
(** lines 772-802, on the remaining [n] limbs; the state is the remaining limbs. The second component counts pushes. *)
Fixpoint naf_loop (n : nat) (exp : list Z) : option (list Z * list Z) :=
  match n with
  | O => Some ([], exp)
  | S n =>
      match exp with
      | [] => None
      | x :: exp =>
          let '(ds, e) := naf_limb 64 x in
          let r := if e =? 0 then Some exp else if e =? 1 then Some (fst (naf_carry exp)) else None in
          match r with
          | None => None
          | Some exp => match naf_loop n exp with None => None | Some (ds', rest) => Some (ds ++ ds', rest) end
          end
      end
  end.
(** lines 767-808; lines 803-807 compare the old length with the new length plus one *)
Definition get_naf (exp : list Z) : option (list Z) :=
  match naf_loop (length exp) exp with
  | None => None
  | Some (naf, rest) =>
      if Nat.eqb (length rest) 0 then Some naf
      else if Nat.eqb (length exp) (length exp + length rest + 1) then
        (if match rest with x :: _ => x =? 1 | [] => false end then Some (naf ++ [1]) else None)
      else None
  end.
