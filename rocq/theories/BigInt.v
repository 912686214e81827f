(** Model of halo2-ecc/src/bigint/*.rs: big integers as vectors of limbs (overflow / CRT representation).
    [lb] is the [lookup_bits] of the range chip. Value-only [debug_assert!]s (checks of the prover's BigInt values, compiled
    out in release builds) are omitted: a run of the model is a run of the release build. [zip_eq] of lists of different
    lengths panics (at the end of the shorter list; here before the loop). *)
From Coq Require Import ZArith Lia List Bool.
From Verif Require Import Field Context Utils Gate Range.
Import ListNotations.
Local Open Scope Z_scope.
Local Open Scope monad_scope.

Section BigInt.
Context {p : positive} (lb : nat).
Notation Fp := (F p).
Notation qc := (qcell p).
Notation M := (M p).
Notation AV := (AV p).

(** bigint/mod.rs:37-44 [OverflowInteger] *)
Record ovi := mkOvi { o_limbs : list AV; o_bits : nat }.
(** bigint/mod.rs:170-184 [CRTInteger]; [ProperCrtUint] (mod.rs:218-220) is a transparent wrapper around it, and
    [ProperUint] (mod.rs:82-84) is a transparent wrapper around the list of limbs *)
Record crt := mkCrt { c_trunc : ovi; c_nat : AV; c_val : Z }.
Definition c_limbs (c : crt) : list AV := o_limbs (c_trunc c).
Definition c_bits (c : crt) : nat := o_bits (c_trunc c).

(** bigint/mod.rs:67-75 [OverflowInteger::evaluate_native] *)
Definition evaluate_native (limbs : list AV) (limb_bases : list Fp) : M AV :=
  inner_product (map Existing limbs) (map Constant limb_bases).
(** bigint/mod.rs:100-112 [ProperUint::into_crt] *)
Definition into_crt (limbs : list AV) (value : Z) (limb_bases : list Fp) (limb_bits : nat) : M crt :=
  native <- evaluate_native limbs limb_bases ;;
  ret (mkCrt (mkOvi limbs limb_bits) native value).
(** bigint/mod.rs:141-144, 292-306 [FixedCRTInteger::from_native] then [assign] *)
Definition fixed_crt_assign (value : Z) (num_limbs limb_bits : nat) (native_modulus : Z) : M crt :=
  limbs <- lift (decompose_biguint value num_limbs limb_bits) ;;
  al <- mapM load_constant limbs ;;
  fn <- lift (biguint_to_fe (value mod native_modulus)) ;;
  an <- load_constant fn ;;
  ret (mkCrt (mkOvi al limb_bits) an value).

(** add_no_carry.rs:8-21, sub_no_carry.rs:8-21, scalar_mul_and_add_no_carry.rs:18-34, select.rs:9-23: limbwise binary operations *)
Definition limbwise (f : AV -> AV -> M AV) (a b : list AV) : M (list AV) :=
  assert_ (Nat.eqb (length a) (length b)) ;;;
  mapM (fun xy => f (fst xy) (snd xy)) (combine a b).
(** add_no_carry.rs:8-21 *)
Definition add_assign (a b : ovi) : M ovi :=
  l <- limbwise (fun x y => add (Existing x) (Existing y)) (o_limbs a) (o_limbs b) ;;
  ret (mkOvi l (Nat.max (o_bits a) (o_bits b) + 1)).
(** add_no_carry.rs:27-37 *)
Definition add_crt (a b : crt) : M crt :=
  t <- add_assign (c_trunc a) (c_trunc b) ;;
  n <- add (Existing (c_nat a)) (Existing (c_nat b)) ;;
  ret (mkCrt t n (c_val a + c_val b)).
(** sub_no_carry.rs:8-21 *)
Definition sub_assign (a b : ovi) : M ovi :=
  l <- limbwise (fun x y => sub (Existing x) (Existing y)) (o_limbs a) (o_limbs b) ;;
  ret (mkOvi l (Nat.max (o_bits a) (o_bits b) + 1)).
(** sub_no_carry.rs:24-34 *)
Definition sub_crt (a b : crt) : M crt :=
  t <- sub_assign (c_trunc a) (c_trunc b) ;;
  n <- sub (Existing (c_nat a)) (Existing (c_nat b)) ;;
  ret (mkCrt t n (c_val a - c_val b)).
(** mul_no_carry.rs:9-34 [truncate] *)
Definition mul_truncate (a b : ovi) (num_limbs_log2_ceil : nat) : M ovi :=
  let k := length (o_limbs a) in
  assert_ (Nat.eqb k (length (o_limbs b))) ;;;
  l <- mapM (fun i => inner_product (map Existing (firstn (S i) (o_limbs a)))
                                    (map Existing (rev (firstn (S i) (o_limbs b))))) (seq 0 k) ;;
  ret (mkOvi l (num_limbs_log2_ceil + o_bits a + o_bits b)).
(** mul_no_carry.rs:37-49 *)
Definition mul_crt (a b : crt) (num_limbs_log2_ceil : nat) : M crt :=
  t <- mul_truncate (c_trunc a) (c_trunc b) num_limbs_log2_ceil ;;
  n <- mul (Existing (c_nat a)) (Existing (c_nat b)) ;;
  ret (mkCrt t n (c_val a * c_val b)).
(** scalar_mul_no_carry.rs:26-33, scalar_mul_and_add_no_carry.rs:46-53: [c : i64]; [-c] overflows (panic) for [i64::MIN] *)
Definition i64_scalar (c : Z) : option (Fp * Z) :=
  if (- 2 ^ 63 <=? c) && (c <? 2 ^ 63) then
    if 0 <=? c then Some (of_Z p c, c)
    else if c =? - 2 ^ 63 then None else Some (Fopp (of_Z p (- c)), - c)
  else None.
(** scalar_mul_no_carry.rs:9-18 *)
Definition scalar_mul_assign (a : ovi) (c_f : Fp) (c_log2_ceil : nat) : M ovi :=
  l <- mapM (fun x => mul (Existing x) (Constant c_f)) (o_limbs a) ;;
  ret (mkOvi l (o_bits a + c_log2_ceil)).
(** scalar_mul_no_carry.rs:20-39 *)
Definition scalar_mul_crt (a : crt) (c : Z) : M crt :=
  cc <- lift (i64_scalar c) ;;
  t <- scalar_mul_assign (c_trunc a) (fst cc) (log2_ceil (snd cc)) ;;
  n <- mul (Existing (c_nat a)) (Constant (fst cc)) ;;
  ret (mkCrt t n (c_val a * c)).
(** scalar_mul_and_add_no_carry.rs:18-34 *)
Definition scalar_mul_add_assign (a b : ovi) (c_f : Fp) (c_log2_ceil : nat) : M ovi :=
  l <- limbwise (fun x y => mul_add (Existing x) (Constant c_f) (Existing y)) (o_limbs a) (o_limbs b) ;;
  ret (mkOvi l (Nat.max (o_bits a + c_log2_ceil) (o_bits b) + 1)).
(** scalar_mul_and_add_no_carry.rs:37-58 *)
Definition scalar_mul_add_crt (a b : crt) (c : Z) : M crt :=
  cc <- lift (i64_scalar c) ;;
  t <- scalar_mul_add_assign (c_trunc a) (c_trunc b) (fst cc) (log2_ceil (snd cc)) ;;
  n <- mul_add (Existing (c_nat a)) (Constant (fst cc)) (Existing (c_nat b)) ;;
  ret (mkCrt t n (c_val a * c + c_val b)).
(** negative.rs:4-11 *)
Definition neg_assign (a : ovi) : M ovi :=
  l <- mapM (fun x => neg (Existing x)) (o_limbs a) ;; ret (mkOvi l (o_bits a)).
(** select.rs:9-23 *)
Definition select_assign (a b : ovi) (sel : AV) : M ovi :=
  l <- limbwise (fun x y => select (Existing x) (Existing y) (Existing sel)) (o_limbs a) (o_limbs b) ;;
  ret (mkOvi l (Nat.max (o_bits a) (o_bits b))).
(** select.rs:26-50 *)
Definition select_crt (a b : crt) (sel : AV) : M crt :=
  t <- select_assign (c_trunc a) (c_trunc b) sel ;;
  n <- select (Existing (c_nat a)) (Existing (c_nat b)) (Existing sel) ;;
  s <- lift (av_value sel) ;;
  ret (mkCrt t n (if Fis0 s then c_val b else c_val a)).
(** select_by_indicator.rs:8-25 (and 38-49); [a.limbs[idx]] panics when out of range *)
Definition sbi_limbs (a : list (list AV)) (coeffs : list AV) : M (list AV) :=
  a0 <- lift (nth_error a 0) ;;
  mapM (fun idx => c <- lift (column idx a) ;; select_by_indicator (map Existing c) coeffs) (seq 0 (length a0)).
Definition max_bits (a : list ovi) : nat := fold_left (fun acc x => Nat.max acc (o_bits x)) a O.
Definition sbi_assign (a : list ovi) (coeffs : list AV) : M ovi :=
  l <- sbi_limbs (map o_limbs a) coeffs ;; ret (mkOvi l (max_bits a)).
(** select_by_indicator.rs:59-65: the last [x] whose coefficient is nonzero *)
Fixpoint sbi_value (acc : Z) (a : list crt) (coeffs : list AV) : option Z :=
  match a, coeffs with
  | x :: a, y :: coeffs =>
      match av_value y with
      | None => None
      | Some v => sbi_value (if Fis0 v then acc else c_val x) a coeffs
      end
  | _, _ => Some acc
  end.
(** select_by_indicator.rs:29-69 *)
Definition sbi_crt (a : list crt) (coeffs : list AV) (limb_bases : list Fp) : M crt :=
  assert_ (Nat.eqb (length a) (length coeffs)) ;;;
  t <- sbi_assign (map c_trunc a) coeffs ;;
  let k := length (o_limbs t) in
  n <- (if Nat.ltb k (length a) then
          bs <- lift (slice_to k limb_bases) ;; evaluate_native (o_limbs t) bs
        else select_by_indicator (map (fun x => Existing (c_nat x)) a) coeffs) ;;
  v <- lift (sbi_value 0 a coeffs) ;;
  ret (mkCrt t n v).

(** big_is_zero.rs:8-20; [ilog2] of a nonzero usize *)
Definition big_is_zero_positive (a : ovi) : M AV :=
  let k := length (o_limbs a) in
  assert_ (negb (Nat.eqb k 0)) ;;;
  assert_ (Nat.ltb (o_bits a + Nat.log2 k) (CAPACITY p)) ;;;
  s <- sum (map Existing (o_limbs a)) ;;
  is_zero s.
(** big_is_zero.rs:27-40 (and 47-53) *)
Definition big_is_zero (a : list AV) : M AV :=
  match a with
  | [] => panic
  | a0 :: a =>
      z <- is_zero a0 ;;
      foldM (fun partial x => z <- is_zero x ;; and (Existing z) (Existing partial)) a z
  end.
(** big_is_equal.rs:11-29 *)
Definition big_is_equal (a b : list AV) : M AV :=
  match a, b with
  | a0 :: a, b0 :: b =>
      e <- is_equal (Existing a0) (Existing b0) ;;
      assert_ (Nat.eqb (length a) (length b)) ;;;
      foldM (fun partial xy => e <- is_equal (Existing (fst xy)) (Existing (snd xy)) ;; and (Existing e) (Existing partial))
            (combine a b) e
  | _, _ => panic
  end.
(** big_is_even.rs:10-22 *)
Definition big_is_even (a : ovi) (limb_bits : nat) : M AV :=
  a0 <- lift (nth_error (o_limbs a) 0) ;;
  b <- get_last_bit lb a0 limb_bits ;;
  not (Existing b).

(** sub.rs:26-59, one iteration *)
Definition sub_step (limb_bits : nat) (limb_base : Fp) (st : list AV * option AV) (xy : AV * AV) : M (list AV * option AV) :=
  let '(a_limb, b_limb) := xy in
  bl <- (match snd st with
         | None => lt <- is_less_than lb (Existing a_limb) (Existing b_limb) limb_bits ;; ret (b_limb, lt)
         | Some borrow =>
             b_plus_borrow <- add (Existing b_limb) (Existing borrow) ;;
             lt <- is_less_than lb (Existing a_limb) (Existing b_plus_borrow) (limb_bits + 1) ;;
             ret (b_plus_borrow, lt)
         end) ;;
  let '(bottom, lt) := bl in
  vl <- lift (av_value lt) ;; va <- lift (av_value a_limb) ;; vb <- lift (av_value bottom) ;;
  let a_with_borrow := (limb_base * vl + va)%F in
  out <- assign_region_last [Existing a_limb; Existing lt; Constant limb_base; Witness a_with_borrow; Constant (- F1)%F;
                             Existing bottom; Witness (a_with_borrow - vb)%F] [0; 3] ;;
  ret (fst st ++ [out], Some lt).
(** sub.rs:13-61; [borrow.unwrap()] panics on zero limbs *)
Definition big_sub (a b : list AV) (limb_bits : nat) (limb_base : Fp) : M (ovi * AV) :=
  assert_ (Nat.eqb (length a) (length b)) ;;;
  r <- foldM (sub_step limb_bits limb_base) (combine a b) ([], None) ;;
  borrow <- lift (snd r) ;;
  ret (mkOvi (fst r) limb_bits, borrow).
(** sub.rs:65-79 *)
Definition big_sub_crt (a b : crt) (limb_bits : nat) (limb_base : Fp) : M (crt * AV) :=
  n <- sub (Existing (c_nat a)) (Existing (c_nat b)) ;;
  r <- big_sub (c_limbs a) (c_limbs b) limb_bits limb_base ;;
  ret (mkCrt (fst r) n (c_val a - c_val b), snd r).
(** big_less_than.rs:6-17 *)
Definition big_less_than (a b : list AV) (limb_bits : nat) (limb_base : Fp) : M AV :=
  r <- big_sub a b limb_bits limb_base ;; ret (snd r).

(** check_carry_to_zero.rs:40-51: [BigInt / BigInt] truncates towards zero *)
Fixpoint carries (prev : Z) (a : list Z) (limb_base_big : Z) : list Z :=
  match a with [] => [] | x :: a => let c := Z.quot (x + prev) limb_base_big in c :: carries c a limb_base_big end.
(** check_carry_to_zero.rs:53-57; [max_limb_bits - limb_bits] underflow panics *)
Definition carry_range_bits (max_limb_bits limb_bits : nat) : nat :=
  (((max_limb_bits - limb_bits + 1 + lb) / lb) * lb - 1)%nat.
(** check_carry_to_zero.rs:67-85, one iteration *)
Definition carry_step (limb_base shift_val : Fp) (range_bits : nat) (previous : option AV) (xc : AV * Z) : M (option AV) :=
  let '(a_limb, carry) := xc in
  nc <- lift (bigint_to_fe (- carry)) ;;
  assign_region [Existing a_limb; Witness nc; Constant limb_base;
                 match previous with Some x => Existing x | None => Constant F0 end] [0] ;;;
  neg_carry <- ctx_get (-3) ;;
  shifted <- add (Existing neg_carry) (Constant shift_val) ;;
  range_check lb shifted (range_bits + 1) ;;;
  ret (Some neg_carry).
(** check_carry_to_zero.rs:27-86 [truncate] *)
Definition check_carry_to_zero (a : ovi) (limb_bits : nat) (limb_base : Fp) (limb_base_big : Z) : M unit :=
  vs <- lift (fold_right (fun x acc => match av_value x, acc with Some v, Some l => Some (fe_to_bigint v :: l) | _, _ => None end)
                         (Some []) (o_limbs a)) ;;
  let cs := carries 0 vs limb_base_big in
  assert_ (Nat.leb limb_bits (o_bits a)) ;;;
  assert_ (Nat.ltb 0 lb) ;;;
  let range_bits := carry_range_bits (o_bits a) limb_bits in
  shift_val <- lift (nth_error (pow_of_two_table (p:=p)) range_bits) ;;
  foldM (carry_step limb_base shift_val range_bits) (combine (o_limbs a) cs) None ;;;
  ret tt.

(** the arguments [mod_vec, mod_native, limb_bits, limb_bases, limb_base_big] and [modulus], [k_bits] of the two CRT checks *)
Record modp := mkModp { k_bits : nat; modulus_ : Z; mod_vec : list Fp; mod_native : Fp; l_bits : nat; l_bases : list Fp; l_base_big : Z }.

(** carry_mod.rs:92-134, one iteration: [i] is the length of the accumulators *)
Definition carry_mod_step (P : modp) (st : list AV * list AV * list AV) (x : AV * (Fp * Fp)) : M (list AV * list AV * list AV) :=
  let '(quot, out, check) := st in
  let '(a_limb, (quot_v, out_v)) := x in
  r <- inner_product_left_last (map Existing quot ++ [Witness quot_v])
         (map Constant (rev (firstn (S (length quot)) (mod_vec P)))) ;;
  vp <- lift (av_value (fst r)) ;; va <- lift (av_value a_limb) ;;
  let temp1 := (vp - va)%F in
  assign_region [Constant (- F1)%F; Existing a_limb; Witness temp1; Constant F1; Witness out_v; Witness (temp1 + out_v)%F]
                [-1; 2] ;;;
  check_cell <- ctx_last ;;
  out_cell <- ctx_get (-2) ;;
  ret (quot ++ [snd r], out ++ [out_cell], check ++ [check_cell]).
(** carry_mod.rs:139-142 *)
Definition rc_out (k n last_bits : nat) (out : list AV) : M unit :=
  iterM (fun ix => range_check lb (snd ix) (if Nat.eqb (fst ix) (k - 1) then last_bits else n)) (combine (seq 0 (length out)) out).
(** carry_mod.rs:145-153, check_carry_mod_to_zero.rs:83-91 *)
Definition rc_quot (k n last_bits : nat) (limb_bases : list Fp) (quot : list AV) : M unit :=
  iterM (fun ix => let is_last := Nat.eqb (fst ix) (k - 1) in
                   let b := if is_last then last_bits else n in
                   base <- lift (if is_last then nth_error (pow_of_two_table (p:=p)) b else nth_error limb_bases 1) ;;
                   qs <- add (Existing (snd ix)) (Constant base) ;;
                   range_check lb qs (b + 1)) (combine (seq 0 (length quot)) quot).
(** carry_mod.rs:42-65, check_carry_mod_to_zero.rs:27-37; [usize] underflows panic *)
Definition quot_max_bits (k n : nat) (modulus : Z) : option nat :=
  if Nat.leb 1 k && Nat.leb 1 (n * k) && Nat.leb 1 (n * k - 1 + NUM_BITS p) && Nat.leb (bits modulus) (n * k - 1 + NUM_BITS p - 1)
  then Some (n * k - 1 + NUM_BITS p - 1 - bits modulus)%nat else None.
(** carry_mod.rs:30-192 *)
Definition carry_mod_crt (P : modp) (a : crt) : M crt :=
  let n := l_bits P in
  let k := length (c_limbs a) in
  qmb <- lift (quot_max_bits k n (modulus_ P)) ;;
  assert_ (Nat.leb (n * (k - 1)) qmb) ;;;
  let quot_last_limb_bits := (qmb - n * (k - 1))%nat in
  assert_ (Nat.leb (n * (k - 1)) (bits (modulus_ P))) ;;;
  let out_last_limb_bits := (bits (modulus_ P) - n * (k - 1))%nat in
  let quot_val := c_val a / modulus_ P in
  let out_val := c_val a mod modulus_ P in
  out_vec <- lift (decompose_bigint out_val k n) ;;
  quot_vec <- lift (decompose_bigint quot_val k n) ;;
  assert_ (Nat.eqb (length (mod_vec P)) k) ;;;
  r <- foldM (carry_mod_step P) (combine (c_limbs a) (combine quot_vec out_vec)) ([], [], []) ;;
  let '(quot, out, check) := r in
  rc_out k n out_last_limb_bits out ;;;
  rc_quot k n quot_last_limb_bits (l_bases P) quot ;;;
  base1 <- lift (nth_error (l_bases P) 1) ;;
  check_carry_to_zero (mkOvi check (Nat.max (Nat.max n (c_bits a) + 1) (2 * n + k_bits P))) n base1 (l_base_big P) ;;;
  quot_native <- evaluate_native quot (l_bases P) ;;
  out_native <- evaluate_native out (l_bases P) ;;
  assign_region [Constant (mod_native P); Existing quot_native; Existing (c_nat a)] [-1] ;;;
  ret (mkCrt (mkOvi out n) out_native out_val).

(** check_carry_mod_to_zero.rs:63-79, one iteration *)
Definition check_mod_step (P : modp) (st : list AV * list AV) (x : AV * Fp) : M (list AV * list AV) :=
  let '(quot, check) := st in
  let '(a_limb, quot_v) := x in
  r <- inner_product_left_last (map Existing quot ++ [Witness quot_v])
         (map Constant (rev (firstn (S (length quot)) (mod_vec P)))) ;;
  vp <- lift (av_value (fst r)) ;; va <- lift (av_value a_limb) ;;
  check_cell <- assign_region_last [Constant (- F1)%F; Existing a_limb; Witness (vp - va)%F] [-1] ;;
  ret (quot ++ [snd r], check ++ [check_cell]).
(** check_carry_mod_to_zero.rs:16-125; [mod_vec[0..=i]] panics when [mod_vec] is shorter than the limbs of [a] *)
Definition check_carry_mod_to_zero (P : modp) (a : crt) : M unit :=
  let n := l_bits P in
  let k := length (c_limbs a) in
  qmb <- lift (quot_max_bits k n (modulus_ P)) ;;
  assert_ (Nat.ltb qmb (n * k)) ;;;
  assert_ (Nat.leb (n * (k - 1)) qmb) ;;;
  let quot_last_limb_bits := (qmb - n * (k - 1))%nat in
  let quot_val := c_val a / modulus_ P in
  quot_vec <- lift (decompose_bigint quot_val k n) ;;
  assert_ (Nat.leb k (length (mod_vec P))) ;;;
  r <- foldM (check_mod_step P) (combine (c_limbs a) quot_vec) ([], []) ;;
  let '(quot, check) := r in
  rc_quot k n quot_last_limb_bits (l_bases P) quot ;;;
  base1 <- lift (nth_error (l_bases P) 1) ;;
  check_carry_to_zero (mkOvi check (Nat.max (c_bits a) (2 * n + k_bits P))) n base1 (l_base_big P) ;;;
  quot_native <- evaluate_native quot (l_bases P) ;;
  assign_region [Constant F0; Constant (mod_native P); Existing quot_native; Existing (c_nat a)] [0].
End BigInt.
Arguments ovi : clear implicits. Arguments crt : clear implicits. Arguments modp : clear implicits.
