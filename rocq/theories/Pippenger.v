(** Model of halo2-ecc/src/ecc/pippenger.rs:219-339 [multi_exp_par] and of the dispatch in halo2-ecc/src/ecc/mod.rs:1061-1103
    [variable_base_msm_custom], over [FpChip]. Simplification: the two [parallelize_core] sections (lines 269-314) run one
    thread context per item; here the items run one after the other in a single context, in the order of the items, which
    is the order in which their contexts are merged (halo2-base/src/gates/flex_gate/threads/parallelize.rs, property C28). *)
From Coq Require Import ZArith Lia List Bool.
From Verif Require Import Field Context Utils Gate Range BigInt FpChip SafeTypes Ecc.
Import ListNotations.
Local Open Scope Z_scope.
Local Open Scope monad_scope.

Section Pippenger.
Context {p : positive} (lb : nat) (m : positive).
Notation M := (M p).
Notation AV := (AV p).
Notation ecpt := (ecpt p).
Variable ch : fpchip p.
Variable b : F m.

(** pippenger.rs:243-252: the bits of one scalar; [zip] stops at the number of chunks, [scalars[0].len()] *)
Definition pip_scalar_bits (max_bits len0 : nat) (scalar : list AV) : M (list AV) :=
  chunks <- mapM (fun c => num_to_bits c max_bits) (firstn len0 scalar) ;;
  ret (concat chunks).
(** pippenger.rs:238, 244-250: [bool_scalars[t]] collects bit [t] of the scalars that have one *)
Definition pip_column (bits : list (list AV)) (t : nat) : list AV :=
  flat_map (fun bl => match nth_error bl t with Some x => [x] | None => [] end) bits.
(** pippenger.rs:284-290: one new entry of the bucket, from the entry [prev] and the strict point [point] *)
Definition pip_step (point : ecpt) (is_infinity : AV) (prev : ecpt) : M ecpt :=
  new_point <- ec_add_unequal lb m ch (Strict prev) (Strict point) true ;;
  new_point <- ec_select prev new_point is_infinity ;;
  into_strict_point lb ch new_point.
(** pippenger.rs:278-291: the loop over the points of a clump, from index [i] on *)
Fixpoint pip_bucket (i : nat) (bucket points : list ecpt) : M (list ecpt) :=
  match points with
  | [] => ret bucket
  | point :: rest =>
      is_infinity <- fp_is_zero lb ch (py point) ;;
      point <- into_strict_point lb ch point ;;
      news <- mapM (pip_step point is_infinity) (firstn (2 ^ i) bucket) ;;
      pip_bucket (S i) (bucket ++ news) rest
  end.
(** pippenger.rs:272-303: one round: the bucket of a clump, then one selection per column of bits *)
Definition pip_round (c : nat) (columns : list (list AV)) (round : nat) (clump : list ecpt) (any_point : ecpt) : M (list ecpt) :=
  any_point <- into_strict_point lb ch any_point ;;
  bucket <- pip_bucket 0 [any_point] clump ;;
  mapM (fun bits =>
          sel <- lift (slice bits (round * c) (round * c + length clump)) ;;
          ec_select_from_bits ch bucket sel) columns.
(** pippenger.rs:309-312: one more round added to [acc] *)
Definition pip_agg_step (i : nat) (acc : ecpt) (row : list ecpt) : M ecpt :=
  mp <- lift (nth_error row i) ;;
  acc <- ec_add_unequal lb m ch (Strict acc) (Strict mp) true ;;
  into_strict_point lb ch acc.
(** pippenger.rs:307-314: column [i] over all the rounds *)
Definition pip_agg (multi_prods : list (list ecpt)) (i : nat) : M ecpt :=
  row0 <- lift (nth_error multi_prods 0) ;;
  acc <- lift (nth_error row0 i) ;;
  foldM (pip_agg_step i) (skipn 1 multi_prods) acc.
(** pippenger.rs:328-333: one step of the final double-and-add loop; the state is [(any_sum, sum)] *)
Definition pip_horner (st : ecpt * ecpt) (g : ecpt) : M (ecpt * ecpt) :=
  any_sum <- ec_double lb m ch (fst st) ;;
  sum <- ec_double lb m ch (snd st) ;;
  sum <- ec_add_unequal lb m ch (NonStrict sum) (Strict g) true ;;
  ret (any_sum, sum).
(** pippenger.rs:219-339. [(ax, ay)] are the coordinates of the random point of line 260, [(rx, ry)] the random elements of
    the final [ec_sub_strict]. [chunks_mut(0)] (line 245) and the division by [c = 0] (line 255) panic. *)
Definition multi_exp_par (ax ay rx ry : F m) (points : list ecpt) (scalars : list (list AV)) (max_bits clump_factor : nat) : M ecpt :=
  assert_ (Nat.eqb (length points) (length scalars)) ;;;
  s0 <- lift (nth_error scalars 0) ;;
  let scalar_bits := (max_bits * length s0)%nat in
  assert_ (negb (Nat.eqb max_bits 0)) ;;;
  bits <- mapM (pip_scalar_bits max_bits (length s0)) scalars ;;
  let columns := map (pip_column bits) (seq 0 scalar_bits) in
  let c := clump_factor in
  assert_ (negb (Nat.eqb c 0)) ;;;
  let clumps := chunks c points in
  any_base <- load_random_point lb m ch b ax ay ;;
  rest <- double_chain lb m ch (length clumps - 1) any_base ;;
  let any_points := any_base :: rest in
  multi_prods <- mapM (fun rca => pip_round c columns (fst rca) (fst (snd rca)) (snd (snd rca)))
                      (combine (seq 0 (length clumps)) (combine clumps any_points)) ;;
  agg <- mapM (pip_agg multi_prods) (seq 0 scalar_bits) ;;
  last_point <- lift (nth_error any_points (length any_points - 1)) ;;
  any_point <- ec_double lb m ch last_point ;;
  any_point <- ec_sub_unequal lb m ch (NonStrict any_point) (NonStrict any_base) true ;;
  top <- lift (nth_error (rev agg) 0) ;;
  st <- foldM pip_horner (skipn 1 (rev agg)) (any_point, top) ;;
  any_sum <- ec_double lb m ch (fst st) ;;
  any_sum <- ec_sub_unequal lb m ch (NonStrict any_sum) (NonStrict any_point) true ;;
  ec_sub_strict lb m ch rx ry (snd st) any_sum.
(** mod.rs:1061-1103 [variable_base_msm_custom]; 1040-1059 [variable_base_msm] is [window_bits := 4] *)
Definition variable_base_msm_custom (ax ay rx ry : F m) (P : list ecpt) (scalars : list (list AV)) (max_bits window_bits : nat) : M ecpt :=
  if Nat.leb (length P) 25 then multi_scalar_multiply lb m ch b ax ay rx ry P scalars max_bits window_bits
  else multi_exp_par ax ay rx ry P scalars max_bits window_bits.
End Pippenger.
