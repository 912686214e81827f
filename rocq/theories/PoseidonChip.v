(** Model of the Poseidon circuits: halo2-base/src/poseidon/hasher/state.rs, hasher/mod.rs and poseidon/mod.rs.
    A [PoseidonState<F, T, RATE>] is the list of its T cells; T and RATE are const generics of the Rust types and
    parameters here.  The constant arrays of the specification have the declared lengths by typing in Rust; the
    functions below use them through [combine], exactly like the [zip]s of the code. *)
From Coq Require Import ZArith Lia List Bool.
From Verif Require Import Field Context Utils Gate Range SafeTypes PoseidonMds.
Import ListNotations.
Local Open Scope Z_scope.
Local Open Scope monad_scope.

Section PoseidonChip.
Context {p : positive} (lb : nat).
Notation Fp := (F p).
Notation qc := (qcell p).
Notation M := (M p).
Notation AV := (AV p).
Variables (T RATE : nat).

(** [self.s[i] = x]; out-of-bounds panics *)
Fixpoint set_nth {A} (l : list A) (i : nat) (x : A) : option (list A) :=
  match l, i with
  | [], _ => None
  | _ :: r, O => Some (x :: r)
  | y :: r, S i' => option_map (cons y) (set_nth r i' x)
  end.

(** state.rs:20-27 [PoseidonState::default] *)
Definition ps_default : M (list AV) :=
  mapM load_constant (of_Z p (2 ^ 64) :: repeat F0 (T - 1)).

(** state.rs:97-106 *)
Definition x_power5_with_constant (x : AV) (c : Fp) : M AV :=
  x2 <- mul (Existing x) (Existing x) ;;
  x4 <- mul (Existing x2) (Existing x2) ;;
  mul_add (Existing x) (Existing x4) (Constant c).

(** state.rs:108-117 *)
Definition sbox_full (s : list AV) (constants : list Fp) : M (list AV) :=
  mapM (fun xc : AV * Fp => x_power5_with_constant (fst xc) (snd xc)) (combine s constants).

(** state.rs:119-122 *)
Definition sbox_part (s : list AV) (c : Fp) : M (list AV) :=
  match s with
  | [] => panic
  | x :: r => y <- x_power5_with_constant x c ;; ret (y :: r)
  end.

(** state.rs:124-164 *)
Definition absorb_with_pre_constants (s inputs : list AV) (pre : list Fp) : M (list AV) :=
  assert_ (Nat.ltb (length inputs) T) ;;;
  s0 <- lift (nth_error s 0) ;; c0 <- lift (nth_error pre 0) ;;
  y0 <- add (Existing s0) (Constant c0) ;;
  let sp := combine s pre in
  y1 <- mapM (fun t : (AV * Fp) * AV =>
                sum [Existing (fst (fst t)); Existing (snd t); Constant (snd (fst t))])
             (combine (skipn 1 sp) inputs) ;;
  let offset := (length inputs + 1)%nat in
  let tl := skipn offset sp in
  y2 <- mapM (fun t : nat * (AV * Fp) =>
                add (Existing (fst (snd t)))
                    (Constant (if Nat.eqb (fst t) 0 then (1 + snd (snd t))%F else snd (snd t))))
             (combine (seq 0 (length tl)) tl) ;;
  ret (y0 :: y1 ++ y2).

(** one iteration of the loop state.rs:206-213 *)
Definition absorb_var_step (padded ind : list AV) (s : list AV) (i : nat) : M (list AV) :=
  si <- lift (nth_error s (i + 1)) ;; pi <- lift (nth_error padded i) ;;
  y <- add (Existing si) (Existing pi) ;;
  s1 <- lift (set_nth s (i + 1) y) ;;
  if Nat.ltb (i + 2) T then
    sj <- lift (nth_error s1 (i + 2)) ;; li <- lift (nth_error ind i) ;;
    z <- add (Existing sj) (Existing li) ;;
    lift (set_nth s1 (i + 2) z)
  else ret s1.

(** state.rs:169-217 *)
Definition absorb_var_len_with_pre_constants (s inputs : list AV) (len : AV) (pre : list Fp) : M (list AV) :=
  s1 <- mapM (fun xc : AV * Fp => add (Existing (fst xc)) (Constant (snd xc))) (combine s pre) ;;
  idx <- dec (Existing len) ;;
  ind <- idx_to_indicator (Existing idx) RATE ;;
  mask_rev <- partial_sums (map Existing (rev ind)) ;;
  let mask := rev mask_rev in
  padded <- mapM (fun im : AV * AV => mul (Existing (fst im)) (Existing (snd im))) (combine inputs mask) ;;
  s2 <- foldM (absorb_var_step padded ind) (seq 0 RATE) s1 ;;
  m0 <- lift (nth_error mask 0) ;;
  e <- not (Existing m0) ;;
  x1 <- lift (nth_error s2 1) ;;
  y1 <- add (Existing x1) (Existing e) ;;
  lift (set_nth s2 1 y1).

(** state.rs:219-233 *)
Definition apply_mds (s : list AV) (mds : list (list Fp)) : M (list AV) :=
  mapM (fun row => inner_product (map Existing s) (map Constant row)) mds.

(** state.rs:235-251 *)
Definition apply_sparse_mds (s : list AV) (sp : sparse (p:=p)) : M (list AV) :=
  h <- inner_product (map Existing s) (map Constant (sp_row sp)) ;;
  s0 <- lift (nth_error s 0) ;;
  t <- mapM (fun cx : Fp * AV => mul_add (Existing s0) (Constant (fst cx)) (Existing (snd cx)))
            (combine (sp_col_hat sp) (skipn 1 s)) ;;
  ret (h :: t).

(** state.rs:54-81: everything after the absorption *)
Definition perm_rounds (s : list AV) (spec : opt_spec (p:=p)) : M (list AV) :=
  let h := (os_rf spec / 2)%nat in
  let cs := os_consts spec in
  assert_ (Nat.ltb 0 h) ;;;
  s1 <- foldM (fun s k => s' <- sbox_full s k ;; apply_mds s' (os_mds spec))
              (firstn (h - 1) (skipn 1 (oc_start cs))) s ;;
  s2 <- sbox_full s1 (last (oc_start cs) []) ;;
  s3 <- apply_mds s2 (os_pre_sparse spec) ;;
  s4 <- foldM (fun s (ks : Fp * sparse (p:=p)) => s' <- sbox_part s (fst ks) ;; apply_sparse_mds s' (snd ks))
              (combine (oc_partial cs) (os_sparse spec)) s3 ;;
  s5 <- foldM (fun s k => s' <- sbox_full s k ;; apply_mds s' (os_mds spec)) (oc_end cs) s4 ;;
  s6 <- sbox_full s5 (repeat F0 T) ;;
  apply_mds s6 (os_mds spec).

(** state.rs:35-81 [PoseidonState::permutation]; the optional length selects the variable-length absorption *)
Definition pad_input (inputs : list AV) (i : nat) : M AV :=
  match nth_error inputs i with Some x => ret x | None => load_zero end.
Definition permutation (s inputs : list AV) (len : option AV) (spec : opt_spec (p:=p)) : M (list AV) :=
  c0 <- lift (nth_error (oc_start (os_consts spec)) 0) ;;
  s1 <- match len with
        | Some l => padded <- mapM (pad_input inputs) (seq 0 RATE) ;;
                    absorb_var_len_with_pre_constants s padded l c0
        | None => absorb_with_pre_constants s inputs c0
        end ;;
  perm_rounds s1 spec.

(** state.rs:83-95 [PoseidonState::select] *)
Definition ps_select (s : list AV) (sel : AV) (set_to : list AV) : M (list AV) :=
  mapM (fun tx : AV * AV => select (Existing (fst tx)) (Existing (snd tx)) (Existing sel)) (combine set_to s).

(** hasher/mod.rs:339-359 [fix_len_array_squeeze]; returns the new state and its second cell *)
Definition fix_len_array_squeeze (inputs s : list AV) (spec : opt_spec (p:=p)) : M (list AV * AV) :=
  assert_ (Nat.ltb 0 RATE) ;;;
  let exact := Nat.eqb (length inputs mod RATE) 0 in
  s1 <- foldM (fun s chunk => permutation s chunk None spec) (chunks RATE inputs) s ;;
  s2 <- (if exact then permutation s1 [] None spec else ret s1) ;;
  o <- lift (nth_error s2 1) ;;
  ret (s2, o).

(** hasher/mod.rs:33-53, 131-133 [PoseidonHasherConsts::new], [initialize_consts]: (init_state, empty_hash) *)
Definition hasher_consts (spec : opt_spec (p:=p)) : M (list AV * AV) :=
  init <- ps_default ;;
  r <- fix_len_array_squeeze [] init spec ;;
  ret (init, snd r).

(** hasher/mod.rs:211-224 [hash_fix_len_array]; [consts] is the initialised [OnceCell] *)
Definition hash_fix_len_array (consts : list AV * AV) (inputs : list AV) (spec : opt_spec (p:=p)) : M AV :=
  r <- fix_len_array_squeeze inputs (fst consts) spec ;; ret (snd r).

(** one iteration of the loop hasher/mod.rs:174-192; the loop state is (state, result_state) *)
Definition var_len_step (spec : opt_spec (p:=p)) (num_perm len_last_chunk : AV)
    (st : list AV * list AV) (ic : nat * list AV) : M (list AV * list AV) :=
  is_last_perm <- is_equal (Existing num_perm) (Constant (of_Z p (Z.of_nat (fst ic + 1)))) ;;
  len_chunk <- select (Existing len_last_chunk) (Constant (of_Z p (Z.of_nat RATE))) (Existing is_last_perm) ;;
  s' <- permutation (fst st) (snd ic) (Some len_chunk) spec ;;
  r' <- ps_select (snd st) is_last_perm s' ;;
  ret (s', r').

(** hasher/mod.rs:149-209 [hash_var_len_array] *)
Definition hash_var_len_array (consts : list AV * AV) (inputs : list AV) (len : AV) (spec : opt_spec (p:=p)) : M AV :=
  let max_len := length inputs in
  if Nat.eqb max_len 0 then ret (snd consts) else
  let num_bits := bit_length (Z.of_nat max_len) in
  dm <- div_mod lb (Existing len) (Z.of_nat RATE) num_bits ;;
  num_perm <- inc (Existing (fst dm)) ;;
  let init := fst consts in
  let cs := chunks RATE inputs in
  st <- foldM (var_len_step spec num_perm (snd dm)) (combine (seq 0 (length cs)) cs) (init, init) ;;
  r <- (if Nat.eqb (max_len mod RATE) 0 then
          is_last_perm <- is_equal (Existing num_perm) (Constant (of_Z p (Z.of_nat (max_len / RATE + 1)))) ;;
          len_chunk <- load_zero ;;
          s' <- permutation (fst st) [] (Some len_chunk) spec ;;
          ps_select (snd st) is_last_perm s'
        else ret (snd st)) ;;
  lift (nth_error r 1).

(** hasher/mod.rs:56-66 [PoseidonCompactInput] and 68-97 [add_validation_constraints] *)
Record compact_input := mkCI { ci_inputs : list AV; ci_is_final : AV; ci_len : AV }.
Definition add_validation_constraints (c : compact_input) : M unit :=
  is_less_than_safe lb (ci_len c) (Z.of_nat (RATE + 1)) ;;;
  is_full <- is_equal (Existing (ci_len c)) (Constant (of_Z p (Z.of_nat RATE))) ;;
  invalid_cond <- or (Existing (ci_is_final c)) (Existing is_full) ;;
  assert_is_const invalid_cond F0.

(** hasher/mod.rs:226-259 [hash_compact_input]: the hashes, in order, and the running state *)
Definition compact_step (spec : opt_spec (p:=p)) (init : list AV) (st : list AV * list AV) (c : compact_input)
  : M (list AV * list AV) :=
  is_full <- is_equal (Existing (ci_len c)) (Constant (of_Z p (Z.of_nat RATE))) ;;
  s1 <- permutation (fst st) (ci_inputs c) (Some (ci_len c)) spec ;;
  s2 <- permutation s1 [] None spec ;;
  a <- lift (nth_error s2 1) ;; b <- lift (nth_error s1 1) ;;
  h <- select (Existing a) (Existing b) (Existing is_full) ;;
  s' <- ps_select s1 (ci_is_final c) init ;;
  ret (s', snd st ++ [h]).
Definition hash_compact_input (consts : list AV * AV) (inputs : list compact_input) (spec : opt_spec (p:=p)) : M (list AV) :=
  r <- foldM (compact_step spec (fst consts)) inputs (fst consts, []) ;; ret (snd r).

(** hasher/mod.rs:99-115 [PoseidonCompactChunkInput] as (inputs, is_final); 261-294 [hash_compact_chunk_inputs] *)
Definition chunk_step (spec : opt_spec (p:=p)) (init : list AV) (zero : AV) (st : list AV * list AV)
    (c : list (list AV) * AV) : M (list AV * list AV) :=
  s1 <- foldM (fun s a => permutation s a None spec) (fst c) (fst st) ;;
  o <- permutation s1 [] None spec ;;
  o1 <- lift (nth_error o 1) ;;
  h <- select (Existing o1) (Existing zero) (Existing (snd c)) ;;
  s' <- ps_select s1 (snd c) init ;;
  ret (s', snd st ++ [h]).
Definition hash_compact_chunk_inputs (consts : list AV * AV) (inputs : list (list (list AV) * AV)) (spec : opt_spec (p:=p))
  : M (list AV) :=
  zero <- load_zero ;;
  r <- foldM (chunk_step spec (fst consts) zero) inputs (fst consts, []) ;; ret (snd r).

(** hasher/mod.rs:296-337 [PoseidonSponge]: (init_state, state, absorbing) *)
Record sponge := mkSponge { sg_init : list AV; sg_state : list AV; sg_absorbing : list AV }.
Definition sponge_from_spec : M sponge := init <- ps_default ;; ret (mkSponge init init []).
Definition sponge_clear (g : sponge) : sponge := mkSponge (sg_init g) (sg_init g) [].
Definition sponge_update (g : sponge) (elements : list AV) : sponge :=
  mkSponge (sg_init g) (sg_state g) (sg_absorbing g ++ elements).
Definition sponge_squeeze (g : sponge) (spec : opt_spec (p:=p)) : M (sponge * AV) :=
  r <- fix_len_array_squeeze (sg_absorbing g) (sg_state g) spec ;;
  ret (mkSponge (sg_init g) (fst r) [], snd r).
End PoseidonChip.
