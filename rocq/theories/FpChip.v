(** Model of halo2-ecc/src/fields/fp.rs [FpChip] and of the default methods of [FieldChip] (fields/mod.rs) it inherits.
    [p] is the native modulus, [m] the modulus of the emulated prime field [Fp]. [Reduced] (fp.rs:27-30) and
    [ProperCrtUint] are transparent wrappers. *)
From Coq Require Import ZArith Lia List Bool.
From Verif Require Import Field Context Utils Gate Range BigInt.
Import ListNotations.
Local Open Scope Z_scope.
Local Open Scope monad_scope.

Section FpChip.
Context {p : positive} (lb : nat) (m : positive).
Notation Fp := (F p).
Notation M := (M p).
Notation AV := (AV p).
Notation crt := (crt p).

(** fp.rs:49-68 [FpChip]; fields that are functions of these ([limb_mask], [native_modulus]) are not stored *)
Record fpchip := mkFpChip { f_bits : nat; f_num : nat; f_num_bits : nat; f_num_log2 : nat; f_bases : list Fp;
  f_base_big : Z; f_p : Z; f_p_limbs : list Fp; f_p_native : Fp }.
(** fp.rs:84-88 *)
Fixpoint bases_loop (n : nat) (running limb_base : Fp) : list Fp :=
  match n with O => [] | S n => (limb_base * running)%F :: bases_loop n (limb_base * running)%F limb_base end.
(** fp.rs:72-104 [FpChip::new] *)
Definition fpchip_new (limb_bits num_limbs : nat) : option fpchip :=
  if Nat.ltb 0 limb_bits && Nat.ltb 0 num_limbs && Nat.leb limb_bits (CAPACITY p) then
    let pz := modulus (p:=m) in
    match decompose_biguint (p:=p) pz num_limbs limb_bits, biguint_to_fe (p:=p) (pz mod modulus (p:=p)),
          biguint_to_fe (p:=p) (Z.shiftl 1 (Z.of_nat limb_bits)) with
    | Some pl, Some pn, Some base =>
        Some (mkFpChip limb_bits num_limbs (bit_length (Z.of_nat num_limbs)) (log2_ceil (Z.of_nat num_limbs))
                (F1 :: bases_loop (num_limbs - 1) F1 base) (Z.shiftl 1 (Z.of_nat limb_bits)) pz pl pn)
    | _, _, _ => None
    end
  else None.

Variable ch : fpchip.
Definition modp_of : modp p := mkModp (f_num_bits ch) (f_p ch) (f_p_limbs ch) (f_p_native ch) (f_bits ch) (f_bases ch) (f_base_big ch).

(** fp.rs:109-124, one iteration; note the width [limb_bits] (not [limb_bits + 1]) of the second comparison *)
Definition ltp_step (borrow : option AV) (pa : Fp * AV) : M (option AV) :=
  let '(p_limb, a_limb) := pa in
  lt <- (match borrow with
         | None => is_less_than lb (Existing a_limb) (Constant p_limb) (f_bits ch)
         | Some b => pb <- add (Constant p_limb) (Existing b) ;;
                     is_less_than lb (Existing a_limb) (Existing pb) (f_bits ch)
         end) ;;
  ret (Some lt).
(** fp.rs:106-126 [enforce_less_than_p] *)
Definition enforce_less_than_p (a : crt) : M unit :=
  r <- foldM ltp_step (combine (f_p_limbs ch) (c_limbs a)) None ;;
  b <- lift r ;;
  assert_is_const b F1.
(** fp.rs:147-153 [load_constant_uint] *)
Definition load_constant_uint (a : Z) : M crt := fixed_crt_assign a (f_num ch) (f_bits ch) (modulus (p:=p)).
(** [self.limb_bases[1]] *)
Definition base1 : option Fp := nth_error (f_bases ch) 1.
(** fp.rs:130-145 [is_less_than_p] *)
Definition is_less_than_p (a : crt) : M AV :=
  pc <- load_constant_uint (f_p ch) ;;
  b1 <- lift base1 ;;
  r <- big_sub_crt lb a pc (f_bits ch) b1 ;;
  z <- is_zero (snd r) ;;
  not (Existing z).
(** fp.rs:158-166 [is_even] *)
Definition fp_is_even (a : crt) : M AV :=
  enforce_less_than_p a ;;; big_is_even lb (c_trunc a) (f_bits ch).
(** fp.rs:199-201 [get_assigned_value]: [%] on BigInt keeps the sign of the dividend *)
Definition get_assigned_value (x : crt) : option (F m) := bigint_to_fe (p:=m) (Z.rem (c_val x) (f_p ch)).
(** fp.rs:337-355 [range_check] *)
Fixpoint fp_range_check_loop (limbs : list AV) (remaining : nat) : M unit :=
  match limbs with
  | [] => ret tt
  | c :: limbs => let b := Nat.min (f_bits ch) remaining in
                  range_check lb c b ;;; fp_range_check_loop limbs (remaining - b)
  end.
Definition fp_range_check (a : crt) (max_bits : nat) : M unit := fp_range_check_loop (c_limbs a) max_bits.
(** fp.rs:203-213 [load_private]; [PRIME_FIELD_NUM_BITS = Fp::NUM_BITS] (fp.rs:182) *)
Definition fp_load_private (a : F m) : M crt :=
  let z := fe_to_biguint a in
  vec <- lift (decompose_biguint (p:=p) z (f_num ch) (f_bits ch)) ;;
  limbs <- assign_witnesses vec ;;
  c <- into_crt limbs z (f_bases ch) (f_bits ch) ;;
  fp_range_check c (NUM_BITS m) ;;;
  ret c.
(** fp.rs:215-217 [load_constant] *)
Definition fp_load_constant (a : F m) : M crt := load_constant_uint (fe_to_biguint a).
(** fp.rs:229-249 [add_constant_no_carry] *)
Definition fp_add_constant_no_carry (a : crt) (c : F m) : M crt :=
  cl <- lift (decompose_biguint (p:=p) (fe_to_biguint c) (f_num ch) (f_bits ch)) ;;
  cn <- lift (biguint_to_fe (p:=p) (fe_to_biguint c mod modulus (p:=p))) ;;
  limbs <- mapM (fun xy => add (Existing (fst xy)) (Constant (snd xy))) (combine (c_limbs a) cl) ;;
  native <- add (Existing (c_nat a)) (Constant cn) ;;
  ret (mkCrt (mkOvi limbs (Nat.max (c_bits a) (f_bits ch) + 1)) native (c_val a + fe_to_biguint c)).
(** fp.rs:220-227, 251-258, 276-302 *)
Definition fp_add_no_carry (a b : crt) : M crt := add_crt a b.
Definition fp_sub_no_carry (a b : crt) : M crt := sub_crt a b.
Definition fp_scalar_mul_no_carry (a : crt) (c : Z) : M crt := scalar_mul_crt a c.
Definition fp_scalar_mul_and_add_no_carry (a b : crt) (c : Z) : M crt := scalar_mul_add_crt a b c.
Definition fp_mul_no_carry (a b : crt) : M crt := mul_crt a b (f_num_log2 ch).
(** fp.rs:264-274 [negate] *)
Definition fp_negate (a : crt) : M crt :=
  pc <- load_constant_uint (f_p ch) ;;
  b1 <- lift base1 ;;
  r <- big_sub_crt lb pc a (f_bits ch) b1 ;;
  assert_is_const (snd r) F0 ;;;
  z <- big_is_zero_positive (c_trunc a) ;;
  select_crt a (fst r) z.
(** fp.rs:304-334 *)
Definition fp_check_carry_mod_to_zero (a : crt) : M unit := check_carry_mod_to_zero lb modp_of a.
Definition fp_carry_mod (a : crt) : M crt := carry_mod_crt lb modp_of a.
(** fp.rs:357-364 [enforce_less_than] *)
Definition fp_enforce_less_than (a : crt) : M crt := enforce_less_than_p a ;;; ret a.
(** fields/mod.rs:65-72 [load_private_reduced] *)
Definition fp_load_private_reduced (a : F m) : M crt := c <- fp_load_private a ;; fp_enforce_less_than c.
(** fp.rs:367-374 [is_soft_zero] *)
Definition fp_is_soft_zero (a : crt) : M AV := big_is_zero_positive (c_trunc a).
(** fp.rs:380-397 [is_soft_nonzero] *)
Definition fp_is_soft_nonzero (a : crt) : M AV :=
  z <- big_is_zero_positive (c_trunc a) ;;
  nz <- not (Existing z) ;;
  pc <- load_constant_uint (f_p ch) ;;
  b1 <- lift base1 ;;
  r <- big_sub_crt lb a pc (f_bits ch) b1 ;;
  uz <- is_zero (snd r) ;;
  nu <- not (Existing uz) ;;
  and (Existing nz) (Existing nu).
(** fp.rs:402-407 [is_zero] *)
Definition fp_is_zero (a : crt) : M AV := enforce_less_than_p a ;;; big_is_zero_positive (c_trunc a).
(** fp.rs:409-416 [is_equal_unenforced] *)
Definition fp_is_equal_unenforced (a b : crt) : M AV := big_is_equal (c_limbs a) (c_limbs b).
(** fields/mod.rs:176-186 [is_equal] *)
Definition fp_is_equal (a b : crt) : M AV :=
  enforce_less_than_p a ;;; enforce_less_than_p b ;;; fp_is_equal_unenforced a b.
(** fp.rs:421-435 [assert_equal] *)
Definition fp_assert_equal (a b : crt) : M unit :=
  iterM (fun xy => constrain_equal (fst xy) (snd xy)) (combine (c_limbs a) (c_limbs b)) ;;;
  enforce_less_than_p a ;;; enforce_less_than_p b.
(** fp.rs:441-481 *)
Definition fp_select (a b : crt) (sel : AV) : M crt := select_crt a b sel.
Definition fp_select_by_indicator (a : list crt) (coeffs : list AV) : M crt := sbi_crt a coeffs (f_bases ch).
(** fields/mod.rs:189-197 [mul] *)
Definition fp_mul (a b : crt) : M crt := c <- fp_mul_no_carry a b ;; fp_carry_mod c.
(** fields/mod.rs:218-239 [divide_unsafe] *)
Definition fp_divide_unsafe (a b : crt) : M crt :=
  av <- lift (get_assigned_value a) ;;
  bv <- lift (get_assigned_value b) ;;
  let b_inv := if Fis0 bv then F0 else Finv bv in
  quot <- fp_load_private (av * b_inv)%F ;;
  quot_b <- fp_mul_no_carry quot b ;;
  c <- fp_sub_no_carry quot_b a ;;
  fp_check_carry_mod_to_zero c ;;;
  ret quot.
(** fields/mod.rs:200-211 [divide] *)
Definition fp_divide (a b : crt) : M crt :=
  z <- fp_is_zero b ;;
  assert_is_const z F0 ;;;
  fp_divide_unsafe a b.
(** fields/mod.rs:257-278 [neg_divide_unsafe] *)
Definition fp_neg_divide_unsafe (a b : crt) : M crt :=
  av <- lift (get_assigned_value a) ;;
  bv <- lift (get_assigned_value b) ;;
  let b_inv := if Fis0 bv then F0 else Finv bv in
  quot <- fp_load_private (- av * b_inv)%F ;;
  quot_b <- fp_mul_no_carry quot b ;;
  c <- fp_add_no_carry quot_b a ;;
  fp_check_carry_mod_to_zero c ;;;
  ret quot.
(** fields/mod.rs:242-253 [neg_divide] *)
Definition fp_neg_divide (a b : crt) : M crt :=
  z <- fp_is_zero b ;;
  assert_is_const z F0 ;;;
  fp_neg_divide_unsafe a b.
End FpChip.
Arguments fpchip : clear implicits.
