(** Model of [RangeChip] / [RangeInstructions] (halo2-base/src/gates/range/mod.rs), function by function.
    [lb] is [lookup_bits]. Line numbers refer to that file. BigUint arguments are non-negative [Z]. *)
From Coq Require Import ZArith Lia List Bool.
From Verif Require Import Field Context Utils Gate.
Import ListNotations.
Local Open Scope Z_scope.
Local Open Scope monad_scope.

Section Range.
Context {p : positive} (lb : nat).
Notation Fp := (F p).
Notation qc := (qcell p).
Notation M := (M p).
Notation AV := (AV p).

(** lines 534-552 [RangeChip::new]: [F::from(1u64 << lookup_bits)], then [for _ in 2..=num_bases] *)
Definition limb_base : Fp := of_Z p (2 ^ Z.of_nat lb).
Fixpoint base_loop (n : nat) (running : Fp) : list qc :=
  match n with O => [] | S n => Constant (running * limb_base)%F :: base_loop n (running * limb_base)%F end.
Definition num_bases : nat := (CAPACITY p / lb)%nat.
Definition limb_bases : list qc := Constant F1 :: Constant limb_base :: base_loop (num_bases - 1) limb_base.

Definition ceil_div (a b : nat) : nat := ((a + b - 1) / b)%nat.

(** lines 594-603: the look up of the limb cells *)
Definition lookup_at (i : nat) : M unit := x <- ctx_get (Z.of_nat i) ;; add_cell_to_lookup x.

(** lines 578-628 [_range_check]; division by [lookup_bits = 0] panics *)
Definition _range_check (a : AV) (range_bits : nat) : M AV :=
  if Nat.eqb range_bits 0 then assert_is_const a F0 ;;; ret a
  else
    assert_ (Nat.ltb 0 lb) ;;;
    let num_limbs := ceil_div range_bits lb in
    let rem_bits := (range_bits mod lb)%nat in
    assert_ (Nat.leb num_limbs (length limb_bases)) ;;;
    last_limb <-
      (if Nat.eqb num_limbs 1 then add_cell_to_lookup a ;;; ret a
       else
         v <- lift (av_value a) ;;
         limbs <- lift (decompose_fe_to_u64_limbs v num_limbs lb) ;;
         row <- ctx_len ;;
         bases <- lift (slice_to num_limbs limb_bases) ;;
         acc <- inner_product (map (fun x => Witness (of_Z p x)) limbs) bases ;;
         constrain_equal a acc ;;;
         lookup_at row ;;;
         iterM (fun i => lookup_at (row + 1 + 3 * i)%nat) (seq 0 (num_limbs - 1)) ;;;
         ctx_get (Z.of_nat (row + 1 + 3 * (num_limbs - 2)))) ;;
    (match Nat.compare rem_bits 1 with
     | Eq => assert_bit last_limb
     | Gt => mult <- lift (nth_error (pow_of_two_table (p:=p)) (lb - rem_bits)) ;;
             check <- mul (Existing last_limb) (Constant mult) ;;
             add_cell_to_lookup check
     | Lt => ret tt
     end) ;;;
    ret last_limb.
(** lines 692-694 *)
Definition range_check (a : AV) (range_bits : nat) : M unit := _range_check a range_bits ;;; ret tt.

(** lines 705-735 [check_less_than] *)
Definition check_less_than (a b : qc) (num_bits : nat) : M unit :=
  pow <- lift (nth_error (pow_of_two_table (p:=p)) num_bits) ;;
  x <- lift (q_value a) ;; y <- lift (q_value b) ;;
  let shift_a := (pow + x)%F in
  assign_region [Witness (shift_a - y)%F; b; Constant F1; Witness shift_a; Constant (- pow)%F; Constant F1; a] [0; 3] ;;;
  check <- ctx_get (-7) ;;
  range_check check num_bits.

(** [BigUint::bits] *)
Definition bits (b : Z) : nat := if b <=? 0 then O else S (Z.to_nat (Z.log2 b)).
(** lines 204-206 etc.: [(bits + lookup_bits - 1) / lookup_bits * lookup_bits] *)
Definition pad_bits (n : nat) : nat := (ceil_div n lb * lb)%nat.

(** lines 203-209 *)
Definition check_less_than_safe (a : AV) (b : Z) : M unit :=
  assert_ (Nat.ltb 0 lb) ;;;
  let range_bits := pad_bits (bit_length b) in
  range_check a range_bits ;;; check_less_than (Existing a) (Constant (of_Z p b)) range_bits.
(** lines 218-227 *)
Definition check_big_less_than_safe (a : AV) (b : Z) : M unit :=
  assert_ (Nat.ltb 0 lb) ;;;
  let range_bits := pad_bits (bits b) in
  range_check a range_bits ;;;
  fb <- lift (biguint_to_fe b) ;;
  check_less_than (Existing a) (Constant fb) range_bits.

(** lines 746-782 [is_less_than] *)
Definition is_less_than (a b : qc) (num_bits : nat) : M AV :=
  assert_ (Nat.ltb 0 lb) ;;;
  let padded := pad_bits num_bits in
  assert_ (Nat.leb (padded + lb) (CAPACITY p)) ;;;
  pow <- lift (nth_error (pow_of_two_table (p:=p)) padded) ;;
  x <- lift (q_value a) ;; y <- lift (q_value b) ;;
  let shift_a := (pow + x)%F in
  assign_region [Witness (shift_a - y)%F; b; Constant F1; Witness shift_a; Constant (- pow)%F; Constant F1; a] [0; 3] ;;;
  shifted <- ctx_get (-7) ;;
  last_limb <- _range_check shifted (padded + lb) ;;
  is_zero last_limb.
(** lines 250-261 *)
Definition is_less_than_safe (a : AV) (b : Z) : M AV :=
  assert_ (Nat.ltb 0 lb) ;;;
  let range_bits := pad_bits (bit_length b) in
  range_check a range_bits ;;; is_less_than (Existing a) (Constant (of_Z p b)) range_bits.
(** lines 271-285 *)
Definition is_big_less_than_safe (a : AV) (b : Z) : M AV :=
  assert_ (Nat.ltb 0 lb) ;;;
  let range_bits := pad_bits (bits b) in
  range_check a range_bits ;;;
  fb <- lift (biguint_to_fe b) ;;
  is_less_than (Existing a) (Constant fb) range_bits.

(** lines 297-323 [div_mod]; BigUint division by zero panics *)
Definition div_mod (a : qc) (b : Z) (a_num_bits : nat) : M (AV * AV) :=
  x <- lift (q_value a) ;;
  assert_ (0 <? b) ;;;
  let a_val := fe_to_biguint x in
  dv <- lift (biguint_to_fe (a_val / b)) ;; rm <- lift (biguint_to_fe (a_val mod b)) ;;
  fb <- lift (biguint_to_fe b) ;;
  assign_region [Witness rm; Constant fb; Witness dv; a] [0] ;;;
  rem <- ctx_get (-4) ;; div <- ctx_get (-2) ;;
  check_big_less_than_safe div (2 ^ Z.of_nat a_num_bits / b + 1) ;;;
  check_big_less_than_safe rem b ;;;
  ret (div, rem).

(** lines 346-394 [div_mod_var] *)
Definition div_mod_var (a b : qc) (a_num_bits b_num_bits : nat) : M (AV * AV) :=
  xa <- lift (q_value a) ;; xb <- lift (q_value b) ;;
  let a_val := fe_to_biguint xa in let b_val := fe_to_biguint xb in
  assert_ (0 <? b_val) ;;;
  let dv := a_val / b_val in let rm := a_val mod b_val in
  let x := 2 ^ Z.of_nat b_num_bits in
  let dhi := dv / x in let dlo := dv mod x in
  x_fe <- lift (nth_error (pow_of_two_table (p:=p)) b_num_bits) ;;
  fdv <- lift (biguint_to_fe dv) ;; fhi <- lift (biguint_to_fe dhi) ;; flo <- lift (biguint_to_fe dlo) ;; frm <- lift (biguint_to_fe rm) ;;
  assign_region [Witness flo; Witness fhi; Constant x_fe; Witness fdv; Witness frm] [0] ;;;
  div_lo <- ctx_get (-5) ;; div_hi <- ctx_get (-4) ;; div <- ctx_get (-2) ;; rem <- ctx_get (-1) ;;
  range_check div_lo b_num_bits ;;;
  (if Nat.leb a_num_bits b_num_bits then assert_is_const div_hi F0 else range_check div_hi (a_num_bits - b_num_bits)) ;;;
  bcr0 <- mul_add b (Existing div_lo) (Existing rem) ;;
  hl0 <- div_mod (Existing bcr0) x a_num_bits ;;
  bcr_hi <- mul_add b (Existing div_hi) (Existing (fst hl0)) ;;
  ahl <- div_mod a x a_num_bits ;;
  constrain_equal bcr_hi (fst ahl) ;;;
  constrain_equal (snd hl0) (snd ahl) ;;;
  range_check rem b_num_bits ;;;
  check_less_than (Existing rem) b b_num_bits ;;;
  ret (div, rem).

(** lines 401-420 [get_last_bit]; [limb_bits - 1] underflows (panic) for 0 *)
Definition get_last_bit (a : AV) (limb_bits : nat) : M AV :=
  x <- lift (av_value a) ;;
  let a_big := fe_to_biguint x in
  let bit_v := of_Z p (Z.b2z (Z.testbit a_big 0)) in
  let h_v := of_Z p (Z.shiftr a_big 1) in
  assign_region [Witness bit_v; Witness h_v; Constant (of_Z p 2); Existing a] [0] ;;;
  half <- ctx_get (-3) ;; bit <- ctx_get (-4) ;;
  assert_ (Nat.ltb 0 limb_bits) ;;;
  range_check half (limb_bits - 1) ;;;
  assert_bit bit ;;;
  ret bit.

(** [slice.iter().step_by(k).take(n)]; [step_by(0)] panics *)
Definition step_take (k n : nat) (l : list Fp) : option (list Fp) :=
  if Nat.eqb k 0 then None else Some (firstn n (map (fun i => nth (k * i) l F0) (seq 0 (ceil_div (length l) k)))).
(** lines 428-454 [decompose_le] *)
Definition decompose_le (num : AV) (limb_bits num_limbs : nat) : M (list AV) :=
  pows <- lift (step_take limb_bits num_limbs (pow_of_two_table (p:=p))) ;;
  v <- lift (av_value num) ;;
  vals <- lift (decompose v num_limbs limb_bits) ;;
  r <- inner_product_left (map Witness vals) (map Constant pows) ;;
  constrain_equal (fst r) num ;;;
  iterM (fun l => range_check l limb_bits) (snd r) ;;;
  ret (snd r).
(** lines 466-484 [limbs_to_num] *)
Definition limbs_to_num (limbs : list AV) (limb_bits : nat) : M AV :=
  pows <- lift (step_take limb_bits (length limbs) (pow_of_two_table (p:=p))) ;;
  inner_product (map Existing limbs) (map Constant pows).

(** lines 634-670 [const_right_rotate_internal]: note [(val_r, val_l) = val.div_mod_floor(2^bit)]; [num_bits - bit] underflow panics *)
Definition const_right_rotate_internal (a : AV) (bit num_bits : nat) : M AV :=
  assert_ (Nat.ltb 0 num_bits && Nat.leb num_bits (CAPACITY p)) ;;;
  v <- lift (av_value a) ;;
  let val := fe_to_biguint v in
  assert_ (Nat.leb (bits val) num_bits) ;;;
  let val_r := val / 2 ^ Z.of_nat bit in
  let val_l := val mod 2 ^ Z.of_nat bit in
  fl <- lift (biguint_to_fe val_l) ;; l <- load_witness fl ;;
  fr <- lift (biguint_to_fe val_r) ;; r <- load_witness fr ;;
  pw <- lift (nth_error (pow_of_two_table (p:=p)) bit) ;;
  vw <- mul_add (Existing l) (Constant pw) (Existing r) ;;
  assert_ (Nat.leb bit num_bits) ;;;
  range_check l (num_bits - bit) ;;;
  range_check r bit ;;;
  constrain_equal a vw ;;;
  pw2 <- lift (nth_error (pow_of_two_table (p:=p)) (num_bits - bit)) ;;
  mul_add (Existing r) (Constant pw2) (Existing l).
(** lines 784-797 and 799-813 *)
Definition const_right_rotate (BIT NUM_BITS : nat) (a : AV) : M AV :=
  assert_ (Nat.ltb 0 NUM_BITS) ;;;
  let k := (BIT mod NUM_BITS)%nat in
  if Nat.eqb k 0 then ret a else const_right_rotate_internal a k NUM_BITS.
Definition const_left_rotate (BIT NUM_BITS : nat) (a : AV) : M AV :=
  assert_ (Nat.ltb 0 NUM_BITS) ;;;
  let k := (BIT mod NUM_BITS)%nat in
  if Nat.eqb k 0 then ret a else const_right_rotate_internal a (NUM_BITS - k) NUM_BITS.
End Range.
