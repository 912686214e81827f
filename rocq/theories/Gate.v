(** Model of [GateInstructions] / [GateChip] (halo2-base/src/gates/flex_gate/mod.rs), function by function.
    Conventions: iterators are lists; [value()] of a cell that holds an unevaluated fraction is a panic ([None]);
    [debug_assert!] is a panic (debug build); slices and [Vec] indexing out of bounds are panics.
    Line numbers refer to halo2-base/src/gates/flex_gate/mod.rs. *)
From Coq Require Import ZArith Lia List Bool.
From Verif Require Import Field Context Utils.
Import ListNotations.
Local Open Scope Z_scope.
Local Open Scope monad_scope.

Section Gate.
Context {p : positive}.
Notation Fp := (F p).
Notation qc := (qcell p).
Notation M := (M p).
Notation AV := (AV p).

Definition two : Fp := of_Z p 2.

(** lines 953-963 [GateChip::new]: [for _ in 2..NUM_BITS { push(two * last) }] *)
Fixpoint pow_loop (n : nat) (last : Fp) : list Fp :=
  match n with O => [] | S n => (two * last)%F :: pow_loop n (two * last)%F end.
Definition pow_of_two_table : list Fp := F1 :: two :: pow_loop (NUM_BITS p - 2) two.
(** [&v[..n]] *)
Definition slice_to {A} (n : nat) (l : list A) : option (list A) :=
  if Nat.leb n (length l) then Some (firstn n l) else None.

(** lines 157-167 *)
Definition add (a b : qc) : M AV :=
  x <- lift (q_value a) ;; y <- lift (q_value b) ;;
  assign_region_last [a; b; Constant F1; Witness (x + y)%F] [0].
(** lines 173-175 *)
Definition inc (a : qc) : M AV := add a (Constant F1).
(** lines 183-195 *)
Definition sub (a b : qc) : M AV :=
  x <- lift (q_value a) ;; y <- lift (q_value b) ;;
  assign_region [Witness (x - y)%F; b; Constant F1; a] [0] ;;; ctx_get (-4).
(** lines 201-203 *)
Definition dec (a : qc) : M AV := sub a (Constant F1).
(** lines 212-225 *)
Definition sub_mul (a b c : qc) : M AV :=
  x <- lift (q_value a) ;; y <- lift (q_value b) ;; z <- lift (q_value c) ;;
  assign_region_last [Witness (x - y * z)%F; b; c; a] [0] ;;; ctx_get (-4).
(** lines 232-237 *)
Definition neg (a : qc) : M AV :=
  x <- lift (q_value a) ;;
  assign_region [a; Witness (- x)%F; Constant F1; Constant F0] [0] ;;; ctx_get (-3).
(** lines 245-255 *)
Definition mul (a b : qc) : M AV :=
  x <- lift (q_value a) ;; y <- lift (q_value b) ;;
  assign_region_last [Constant F0; a; b; Witness (x * y)%F] [0].
(** lines 264-276 *)
Definition mul_add (a b c : qc) : M AV :=
  x <- lift (q_value a) ;; y <- lift (q_value b) ;; z <- lift (q_value c) ;;
  assign_region_last [c; a; b; Witness (x * y + z)%F] [0].
(** lines 284-295 *)
Definition mul_not (a b : qc) : M AV :=
  x <- lift (q_value a) ;; y <- lift (q_value b) ;;
  assign_region_smart [Witness ((1 - x) * y)%F; a; b; b] [0] [(2, 3)] ;;; ctx_get (-4).
(** lines 302-304 *)
Definition assert_bit (x : AV) : M unit :=
  assign_region [Constant F0; Existing x; Existing x; Existing x] [0].
(** [Field::invert().unwrap()]: panics on zero *)
Definition invert (x : Fp) : option Fp := if Fis0 x then None else Some (Finv x).
(** lines 314-327 *)
Definition div_unsafe (a b : qc) : M AV :=
  y <- lift (q_value b) ;; i <- lift (invert y) ;; x <- lift (q_value a) ;;
  assign_region [Constant F0; Witness (i * x)%F; b; a] [0] ;;; ctx_get (-3).

(** [(0..len).map(|i| 3 * i as isize)] *)
Definition offs3 (n : nat) : list Z := map (fun i => 3 * Z.of_nat i) (seq 0 n).

(** lines 421-438, the flat_map closure of [sum]/[partial_sums] *)
Fixpoint sum_cells (sum : Fp) (a : list qc) : option (list qc) :=
  match a with
  | [] => Some []
  | x :: a => match q_value x with
              | None => None
              | Some v => let sum := (sum + v)%F in
                          option_map (fun l => x :: Constant F1 :: Witness sum :: l) (sum_cells sum a)
              end
  end.
(** lines 411-438 *)
Definition sum (a : list qc) : M AV :=
  match a with
  | [] => load_zero
  | [start] => assign_region_last [start] []
  | start :: a =>
      s0 <- lift (q_value start) ;; cells <- lift (sum_cells s0 a) ;;
      assign_region_last (start :: cells) (offs3 (length a))
  end.
(** lines 441-474; the lazily evaluated [get]s do not change the state *)
Definition partial_sums (a : list qc) : M (list AV) :=
  match a with
  | [] => z <- load_zero ;; ret [z]
  | [start] => x <- assign_region_last [start] [] ;; ret [x]
  | start :: a =>
      s0 <- lift (q_value start) ;; cells <- lift (sum_cells s0 a) ;;
      assign_region (start :: cells) (offs3 (length a)) ;;;
      mapM (fun i => ctx_get (-1 - 3 * Z.of_nat i)) (rev (seq 0 (S (length a))))
  end.

(** lines 482-505: [successors] stops as soon as one of the iterators is exhausted *)
Fixpoint acc_prod (x : AV) (ab : list (qc * qc)) : M (list AV) :=
  match ab with
  | [] => ret []
  | (a, b) :: ab => y <- mul_add (Existing x) a b ;; l <- acc_prod y ab ;; ret (y :: l)
  end.
Definition accumulated_product (a b : list qc) : M (list AV) :=
  match b with
  | [] => ret []
  | b0 :: b => x <- assign_region_last [b0] [] ;; l <- acc_prod x (combine a b) ;; ret (x :: l)
  end.

(** lines 524-547 *)
Definition or (a b : qc) : M AV :=
  x <- lift (q_value a) ;; y <- lift (q_value b) ;;
  assign_region_smart
    [Witness (1 - y)%F; Constant F1; b; Constant F1; b; a; Witness (1 - y)%F; Witness (x + y - x * y)%F]
    [0; 4] [(0, 6); (2, 4)] ;;; ctx_last.
(** lines 554-561 *)
Definition and (a b : qc) : M AV := mul a b.
(** lines 569-592 *)
Definition xor (a b : qc) : M AV :=
  x <- lift (q_value a) ;; y <- lift (q_value b) ;;
  assign_region_smart
    [Witness (1 - two * y)%F; Constant two; b; Constant F1; b; a; Witness (1 - two * y)%F;
     Witness (x + y - two * x * y)%F]
    [0; 4] [(0, 6); (2, 4)] ;;; ctx_last.
(** lines 598-600 *)
Definition not (a : qc) : M AV := sub (Constant F1) a.
(** lines 1179-1208 *)
Definition select (a b sel : qc) : M AV :=
  x <- lift (q_value a) ;; y <- lift (q_value b) ;; z <- lift (q_value sel) ;;
  let diff := (x - y)%F in
  assign_region_smart
    [Witness diff; Constant F1; b; a; b; sel; Witness diff; Witness (diff * z + y)%F]
    [0; 4] [(0, 6); (2, 4)] ;;; ctx_last.
(** lines 1214-1244 *)
Definition or_and (a b c : qc) : M AV :=
  y <- lift (q_value b) ;; z <- lift (q_value c) ;; x <- lift (q_value a) ;;
  let bc := (y * z)%F in
  let not_bc := (1 - bc)%F in
  let not_a := (x - 1)%F in
  assign_region_smart
    [Witness not_bc; b; c; Constant F1; Witness not_a; Witness not_bc; Witness (bc + x - bc * x)%F;
     Witness not_a; Constant F1; Constant F1; a]
    [0; 3; 7] [(4, 7); (0, 5)] ;;; ctx_get (-5).

(** lines 994-998, the flat_map closure of [inner_product_simple] *)
Fixpoint ip_cells (sum : Fp) (ab : list (qc * qc)) : option (list qc) :=
  match ab with
  | [] => Some []
  | (a, b) :: ab =>
      match q_value a, q_value b with
      | Some x, Some y => let sum := (sum + x * y)%F in
                          option_map (fun l => a :: b :: Witness sum :: l) (ip_cells sum ab)
      | _, _ => None
      end
  end.
(** lines 984: [matches!(b.peek(), Some(Constant(c)) if c == &F::ONE)] *)
Definition starts_with_one (b : list qc) : bool :=
  match b with Constant c :: _ => Feqb c F1 | _ => false end.
(** the cells of lines 985-998 *)
Definition ip_region (a b : list qc) : option (list qc) :=
  if starts_with_one b then
    match a with
    | [] => None
    | a0 :: a => match q_value a0 with
                 | None => None
                 | Some s0 => option_map (cons a0) (ip_cells s0 (combine a (tl b)))
                 end
    end
  else option_map (cons (Constant F0)) (ip_cells F0 (combine a b)).
(** lines 975-1011 *)
Definition inner_product_simple (a b : list qc) : M bool :=
  cells <- lift (ip_region a b) ;;
  w <- ctx_wgo ;;
  (if w then assign_region cells [] else assign_region cells (offs3 (length cells / 3))) ;;;
  ret (starts_with_one b).
(** lines 1029-1040 *)
Definition inner_product (a b : list qc) : M AV :=
  inner_product_simple a b ;;; ctx_last.
(** lines 1052-1077; [len - 1] underflows (panic) when [len = 0] *)
Definition inner_product_left_last (a b : list qc) : M (AV * AV) :=
  let len := length a in
  row <- ctx_len ;;
  one <- inner_product_simple a b ;;
  a_last <- (if (one : bool) then
               if Nat.eqb len 1 then ctx_get (Z.of_nat row)
               else assert_ (Nat.leb 2 len) ;;; ctx_get (Z.of_nat (row + 1 + 3 * (len - 2)))
             else assert_ (Nat.leb 1 len) ;;; ctx_get (Z.of_nat (row + 1 + 3 * (len - 1)))) ;;
  l <- ctx_last ;; ret (l, a_last).
(** lines 1089-1118 *)
Definition inner_product_left (a b : list qc) : M (AV * list AV) :=
  row <- ctx_len ;;
  one <- inner_product_simple a b ;;
  l <- mapM (fun i => if (one : bool) then
                        if Nat.eqb i 0 then ctx_get (Z.of_nat row)
                        else ctx_get (Z.of_nat (row + 1 + 3 * (i - 1)))
                      else ctx_get (Z.of_nat (row + 1 + 3 * i))) (seq 0 (length a)) ;;
  o <- ctx_last ;; ret (o, l).
(** lines 1126-1143 *)
Definition inner_product_with_sums (a b : list qc) : M (list AV) :=
  row <- ctx_len ;;
  one <- inner_product_simple a b ;;
  len <- ctx_len ;;
  let idx := map (fun i => (row + 3 * i)%nat) (seq 0 ((len - row + 2) / 3)) in
  mapM (fun i => ctx_get (Z.of_nat i)) (if (one : bool) then idx else tl idx).

(** lines 1157-1168, the filter_map closure *)
Fixpoint spc_terms (values : list (Fp * qc * qc)) : M (list (qc * qc)) :=
  match values with
  | [] => ret []
  | (c, va, vb) :: rest =>
      if Feqb c F1 then l <- spc_terms rest ;; ret ((va, vb) :: l)
      else if negb (Feqb c F0) then
        pr <- mul va vb ;; l <- spc_terms rest ;; ret ((Existing pr, Constant c) :: l)
      else spc_terms rest
  end.
(** lines 1150-1172 *)
Definition sum_products_with_coeff_and_var (values : list (Fp * qc * qc)) (var : qc) : M AV :=
  l <- spc_terms values ;;
  inner_product (var :: map fst l) (Constant F1 :: map snd l).

(** lines 818-838 *)
Definition is_zero_wit (x : Fp) : Fp * Assigned p :=
  if Fis0 x then (F1, ATriv F1) else (F0, ARat F1 x).
Definition is_zero (a : AV) : M AV :=
  x <- lift (av_value a) ;;
  let '(z, inv) := is_zero_wit x in
  assign_region_smart
    [Witness z; Existing a; WitnessFraction inv; Constant F1; Constant F0; Existing a; Witness z; Constant F0]
    [0; 4] [(0, 6)] ;;; ctx_get (-2).
(** lines 844-852 *)
Definition is_equal (a b : qc) : M AV := d <- sub a b ;; is_zero d.

(** lines 663-683, body of the inner loop of [bits_to_indicator] *)
Definition bti_step (bit : AV) (offset : nat) (ind : list AV) (old_idx : nat) : M (list AV) :=
  x <- lift (nth_error ind (offset + old_idx)) ;;
  b <- lift (av_value bit) ;; v <- lift (av_value x) ;;
  assign_region [Witness ((1 - b) * v)%F; Existing x; Existing bit; Existing x] [0] ;;;
  y <- ctx_get (-4) ;;
  let ind := ind ++ [y] in
  x' <- lift (nth_error ind (offset + old_idx)) ;;
  pr <- mul (Existing x') (Existing bit) ;;
  ret (ind ++ [pr]).
(** lines 661-685: one iteration of the outer loop; the state is (indicator, offset) *)
Definition bti_round (st : list AV * nat) (ib : nat * AV) : M (list AV * nat) :=
  let '(ind, offset) := st in
  ind' <- foldM (bti_step (snd ib) offset) (seq 0 (2 ^ fst ib)) ind ;;
  ret (ind', (offset + 2 ^ fst ib)%nat).
(** lines 638-687 *)
Definition bits_to_indicator (bits : list AV) : M (list AV) :=
  match rev bits with
  | [] => panic
  | lastb :: others =>
      b <- lift (av_value lastb) ;;
      assign_region [Witness (1 - b)%F; Existing lastb; Constant F1; Constant F1] [0] ;;;
      i0 <- ctx_get (-4) ;; i1 <- ctx_get (-3) ;;
      r <- foldM bti_round (combine (seq 1 (length others)) others) ([i0; i1], O) ;;
      let k := length bits in
      assert_ (Nat.leb (2 ^ k - 2) (length (fst r))) ;;;
      ret (skipn (2 ^ k - 2) (fst r))
  end.

(** lines 693-731 *)
Definition idx_to_indicator (idx : qc) (len : nat) : M (list AV) :=
  match len with
  | O => ret []
  | S n =>
      x <- lift (q_value idx) ;;
      let '(z, inv) := is_zero_wit x in
      assign_region_smart
        [Witness z; idx; WitnessFraction inv; Constant F1; Constant F0; idx; Witness z; Constant F0]
        [0; 4] [(0, 6); (1, 5)] ;;;
      a <- ctx_get (-3) ;;
      first <- ctx_get (-2) ;;
      rest <- mapM (fun i => is_equal (Existing a) (Constant (of_Z p (Z.of_nat i)))) (seq 1 n) ;;
      ret (first :: rest)
  end.

(** lines 752-757, the flat_map closure of [select_by_indicator] *)
Fixpoint sbi_cells (sum : Fp) (ai : list (qc * AV)) : option (list qc) :=
  match ai with
  | [] => Some []
  | (a, ind) :: ai =>
      match av_value ind with
      | None => None
      | Some i =>
          match (if Fis0 i then Some sum else q_value a) with
          | None => None
          | Some sum => option_map (fun l => a :: Existing ind :: Witness sum :: l) (sbi_cells sum ai)
          end
      end
  end.
(** lines 738-759; gate offsets are computed from the length of [a] only *)
Definition select_by_indicator (a : list qc) (ind : list AV) : M AV :=
  cells <- lift (sbi_cells F0 (combine a ind)) ;;
  assign_region_last (Constant F0 :: cells) (offs3 (length a)).
(** lines 767-782 *)
Definition select_from_idx (cells : list qc) (idx : qc) : M AV :=
  ind <- idx_to_indicator idx (length cells) ;; select_by_indicator cells ind.
(** lines 792-811 *)
Definition column {A} (j : nat) (m : list (list A)) : option (list A) :=
  fold_right (fun r acc => match nth_error r j, acc with Some x, Some l => Some (x :: l) | _, _ => None end) (Some []) m.
Definition select_array_by_indicator (array2d : list (list AV)) (ind : list AV) : M (list AV) :=
  match array2d with
  | [] => panic
  | r0 :: _ => mapM (fun j => c <- lift (column j array2d) ;; select_by_indicator (map Existing c) ind)
                    (seq 0 (length r0))
  end.

(** lines 1250-1280 *)
Definition num_to_bits (a : AV) (range_bits : nat) : M (list AV) :=
  v <- lift (av_value a) ;;
  limbs <- lift (decompose_fe_to_u64_limbs v range_bits 1) ;;
  row <- ctx_len ;;
  pw <- lift (slice_to range_bits pow_of_two_table) ;;
  acc <- inner_product (map (fun x => Witness (of_Z p x)) limbs) (map Constant pw) ;;
  constrain_equal a acc ;;;
  assert_ (Nat.ltb 0 range_bits) ;;;
  b0 <- ctx_get (Z.of_nat row) ;;
  bs <- mapM (fun i => ctx_get (Z.of_nat (row + 1 + 3 * (i - 1)))) (seq 1 (range_bits - 1)) ;;
  iterM assert_bit (b0 :: bs) ;;;
  ret (b0 :: bs).
(** lines 1282-1290 *)
Definition bits_to_num (bits : list AV) : M AV :=
  assert_ (Nat.leb (length bits) (CAPACITY p)) ;;;
  pw <- lift (slice_to (length bits) pow_of_two_table) ;;
  inner_product (map Existing bits) (map Constant pw).
(** lines 1303-1311, the loop of [pow_var] *)
Definition pow_step (a : AV) (acc : AV) (ib : nat * AV) : M AV :=
  acc <- (if Nat.ltb 0 (fst ib) then mul (Existing acc) (Existing acc) else ret acc) ;;
  m <- mul (Existing acc) (Existing a) ;;
  select (Existing m) (Existing acc) (Existing (snd ib)).
(** lines 1295-1314 *)
Definition pow_var (a exp : AV) (max_bits : nat) : M AV :=
  bits <- num_to_bits exp max_bits ;;
  acc <- load_constant F1 ;;
  foldM (pow_step a) (combine (seq 0 (length bits)) (rev bits)) acc.

(** lines 916-925, the loop over j <> i computing the denominator *)
Definition lag_denom (coords : list (AV * AV)) (i : nat) (ci : AV) (d0 : AV) : M AV :=
  foldM (fun d jc => if Nat.eqb i (fst jc) then ret d
                     else s <- sub (Existing ci) (Existing (fst (snd jc))) ;; mul (Existing d) (Existing s))
        (combine (seq 0 (length coords)) coords) d0.
(** lines 913-937, one iteration of the outer loop *)
Definition lag_step (coords : list (AV * AV)) (x : AV) (ev : option AV) (ic : nat * (AV * AV)) : M (option AV) :=
  let '(i, (xi, yi)) := ic in
  d0 <- sub (Existing x) (Existing xi) ;;
  d <- lag_denom coords i xi d0 ;;
  z <- is_zero d ;;
  assert_is_const z F0 ;;;
  quot <- div_unsafe (Existing yi) (Existing d) ;;
  match ev with
  | Some e => e' <- add (Existing e) (Existing quot) ;; ret (Some e')
  | None => ret (Some quot)
  end.
(** lines 895-941 *)
Definition lagrange_and_eval (coords : list (AV * AV)) (x : AV) : M (AV * AV) :=
  match coords with
  | [] => panic
  | (x0, _) :: rest =>
      z0 <- sub (Existing x) (Existing x0) ;;
      z <- foldM (fun z c => s <- sub (Existing x) (Existing (fst c)) ;; mul (Existing z) (Existing s)) rest z0 ;;
      ev <- foldM (lag_step coords x) (combine (seq 0 (length coords)) coords) None ;;
      e <- lift ev ;;
      out <- mul (Existing e) (Existing z) ;;
      ret (out, z)
  end.
End Gate.
