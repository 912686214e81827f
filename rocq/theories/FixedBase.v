(** Model of halo2-ecc/src/ecc/fixed_base.rs:24-108 [scalar_multiply] (a constant base point), over [FpChip].
    The host-side Jacobian arithmetic ([to_curve], [+=], [batch_normalize]) belongs to the halo2curves dependency; it is
    modelled by the group law of EcGroup.v. [into_coordinates] of the identity is (0, 0). *)
From Coq Require Import ZArith Lia List Bool.
From Verif Require Import Field Context Utils Gate Range BigInt FpChip SafeTypes EcGroup Ecc.
Import ListNotations.
Local Open Scope Z_scope.
Local Open Scope monad_scope.

Section FixedBase.
Context {p : positive} (lb : nat) (m : positive).
Variable ch : fpchip p.
Variable b : F m.

(** lines 54-58: [cnt] steps [prev = curr; curr += increment; prev]; returns the [prev]s and the last [curr] *)
Fixpoint fb_steps (cnt : nat) (curr increment : pt m) : list (pt m) * pt m :=
  match cnt with
  | O => ([], curr)
  | S cnt => let r := fb_steps cnt (eadd m curr increment) increment in (curr :: fst r, snd r)
  end.
(** lines 48-63: the tables of windows [i], [i + 1], ... ([nw] of them) *)
Fixpoint fb_tables (nw i window_bits total_bits : nat) (increment : pt m) : list (list (pt m)) :=
  match nw with
  | O => []
  | S nw =>
      let r := fb_steps (2 ^ Nat.min window_bits (total_bits - i * window_bits) - 1) increment increment in
      (increment :: fst r) :: fb_tables nw (S i) window_bits total_bits (snd r)
  end.
(** [into_coordinates] *)
Definition coords (g : pt m) : F m * F m := match g with None => (F0, F0) | Some xy => xy end.
(** lines 71-75 *)
Definition load_const_pt (g : pt m) : M p (ecpt p) :=
  x <- fp_load_constant m ch (fst (coords g)) ;;
  y <- fp_load_constant m ch (snd (coords g)) ;;
  ret (mkPt x y).
(** lines 88-97: one window *)
Definition fb_window (curr_point : ecpt p) (cb : list (ecpt p) * list (AV p)) : M p (ecpt p) :=
  bit_sum <- sum (map Existing (snd cb)) ;;
  is_zero_window <- is_zero bit_sum ;;
  add_point <- ec_select_from_bits ch (fst cb) (snd cb) ;;
  s <- ec_add_unequal lb m ch (NonStrict curr_point) (NonStrict add_point) true ;;
  ec_select curr_point s is_zero_window.
(** lines 24-99. [(ax, ay)] are the coordinates of the random point of line 86, [(rx, ry)] those of the final [ec_sub_strict]. *)
Definition fixed_scalar_multiply (ax ay rx ry : F m) (point : pt m) (scalar : list (AV p)) (max_bits window_bits : nat) : M p (ecpt p) :=
  match point with
  | None => zero <- fp_load_constant m ch F0 ;; ret (mkPt zero zero)
  | Some _ =>
      assert_ (negb (Nat.eqb (length scalar) 0)) ;;;
      assert_ (Nat.leb max_bits (NUM_BITS p)) ;;;
      let total_bits := (max_bits * length scalar)%nat in
      assert_ (negb (Nat.eqb window_bits 0)) ;;; (* division by zero panics *)
      let num_windows := ((total_bits + window_bits - 1) / window_bits)%nat in
      cached_points <- mapM load_const_pt (concat (fb_tables num_windows 0 window_bits total_bits point)) ;;
      chunks_ <- mapM (fun c => num_to_bits c max_bits) scalar ;;
      let bits := concat chunks_ in
      any_point <- load_random_point lb m ch b ax ay ;;
      curr_point <- foldM fb_window (combine (rev (chunks (2 ^ window_bits) cached_points)) (rev (chunks window_bits bits))) any_point ;;
      ec_sub_strict lb m ch rx ry curr_point any_point
  end.
End FixedBase.
