(** Model of what turns virtual constraints into physical ones, apart from the gate layout (Layout.v):
    - [CopyConstraintManager] (halo2-base/src/virtual_region/copy_constraints.rs),
    - [LookupAnyManager] (halo2-base/src/virtual_region/lookups.rs),
    - [constrain_virtual_equals_external] (halo2-base/src/utils/halo2.rs:88-113),
    - [BaseConfig::configure] and [BaseCircuitBuilder::synthesize] in keygen/mock mode (halo2-base/src/gates/circuit/mod.rs:74-107, 163-205),
    - [assign_lookups_in_phase], [assign_instances], [calculate_params] (halo2-base/src/gates/circuit/builder.rs:260-371).
    Simplifications: a region is the list of everything written to it; one phase (synthesize handles phase 0 only); type ids are numbers, compared
    like the strings they stand for; writing at a row >= usable rows is a panic, as in the backend. *)
From Coq Require Import ZArith Lia List Bool.
From Verif Require Import Field Spec Context ContextProofs SatCheck Layout.
Import ListNotations.

(** physical cells: basic-gate advice (column, row); lookup advice (chunk, column in chunk, row); fixed constants; instance; outside cells *)
Inductive pcell := PAdv (x : pc) | PLk (chunk j row : nat) | PFix (col row : nat) | PInst (col row : nat) | PExt (n : nat).

(** lexicographic order on keys *)
Fixpoint lexleb (a b : list Z) : bool :=
  match a, b with
  | [], _ => true
  | _ :: _, [] => false
  | x :: a, y :: b => Z.ltb x y || (Z.eqb x y && lexleb a b)
  end.
(** sorting: [par_sort_unstable] / [par_sort_unstable_by]; any sorting algorithm gives the same list up to elements with equal keys *)
Fixpoint insert_by {A} (key : A -> list Z) (x : A) (l : list A) : list A :=
  match l with
  | [] => [x]
  | y :: l' => if lexleb (key x) (key y) then x :: l else y :: insert_by key x l'
  end.
Fixpoint sort_by {A} (key : A -> list Z) (l : list A) : list A :=
  match l with [] => [] | x :: l => insert_by key x (sort_by key l) end.

(** type id of external raw cells, copy_constraints.rs:19; any number that is not the type id of a context *)
Definition external_tid : nat := 1000.

Section Synth.
Context {p : positive}.
Notation Fp := (F p).

(** derived [Ord] of [ContextCell] (lib.rs:111-119) *)
Definition cell_key (c : cell) : list Z := [Z.of_nat (c_tid c); Z.of_nat (c_ctx c); Z.of_nat (c_off c)].
Definition eq_key (e : cell * cell) : list Z := cell_key (fst e) ++ cell_key (snd e).
(** copy_constraints.rs:144-146: by constant, then by cell *)
Definition const_key (e : Fp * cell) : list Z := val (fst e) :: cell_key (snd e).

(** ** CopyConstraintManager *)
Definition find_p (m : list (cell * pcell)) (c : cell) : option pcell := option_map snd (find (fun e => cell_eqb (fst e) c) m).
Definition find_const (m : list (Fp * pcell)) (c : Fp) : option pcell := option_map snd (find (fun e => Feqb (fst e) c) m).
(** copy_constraints.rs:148-163: one fixed cell per distinct constant, left to right then down; [nfix] fixed columns of [rows] rows *)
Fixpoint assign_consts (nfix rows : nat) (l : list (Fp * cell)) (acc : list (Fp * pcell)) (col off : nat) : option (list (Fp * pcell)) :=
  match l with
  | [] => Some acc
  | (c, _) :: l =>
      match find_const acc c with
      | Some _ => assign_consts nfix rows l acc col off
      | None =>
          if Nat.ltb col nfix && Nat.ltb off rows then
            let acc' := acc ++ [(c, PFix col off)] in
            if Nat.leb nfix (S col) then assign_consts nfix rows l acc' 0 (S off) else assign_consts nfix rows l acc' (S col) off
          else None
      end
  end.
Fixpoint mapM {A B} (f : A -> option B) (l : list A) : option (list B) :=
  match l with
  | [] => Some []
  | x :: l => match f x with Some y => match mapM f l with Some ys => Some (y :: ys) | None => None end | None => None end
  end.
(** copy_constraints.rs:136-184. Result: fixed cells written (constant, cell) and copies imposed, in order. *)
Definition copy_assign_raw (nfix rows : nat) (eqs : list (cell * cell)) (consts : list (Fp * cell)) (m : list (cell * pcell))
  : option (list (Fp * pcell) * list (pcell * pcell)) :=
  let consts := sort_by const_key consts in
  match assign_consts nfix rows consts [] 0 0 with
  | None => None
  | Some fixed =>
      let eqs := sort_by eq_key eqs in
      match mapM (fun e => match find_p m (fst e), find_p m (snd e) with Some a, Some b => Some (a, b) | _, _ => None end) eqs,
            mapM (fun e => match find_const fixed (fst e), find_p m (snd e) with Some a, Some b => Some (a, b) | _, _ => None end) consts with
      | Some c1, Some c2 => Some (fixed, c1 ++ c2)
      | _, _ => None
      end
  end.
(** copy_constraints.rs:52-54 [num_distinct_constants]; also multi_phase.rs:113-122 *)
Fixpoint dedup (l : list Fp) : list Fp :=
  match l with
  | [] => []
  | x :: l' => match l' with [] => [x] | y :: _ => if Feqb x y then dedup l' else x :: dedup l' end
  end.
Definition num_distinct_constants (consts : list (Fp * cell)) : nat :=
  length (dedup (sort_by (fun x => [val x]) (map fst consts))).

(** ** LookupAnyManager *)
(** utils/halo2.rs:95-113: [None] is a panic; otherwise (copies imposed, map) *)
Definition constrain_virtual_equals_external (v : AV p) (ext : pcell) (m : list (cell * pcell)) : option (list (pcell * pcell) * list (cell * pcell)) :=
  match av_cell v with
  | None => None
  | Some c => match find_p m c with
              | Some a => Some ([(a, ext)], m)
              | None => if Nat.eqb (c_tid c) external_tid then Some ([], m ++ [(c, ext)]) else None
              end
  end.
(** lookups.rs:70-77 [add_lookup] on the [BTreeMap], kept as an association list with increasing tags *)
Definition tag_key (t : tag) : list Z := [Z.of_nat (fst t); Z.of_nat (snd t)].
Definition tag_eqb (a b : tag) : bool := Nat.eqb (fst a) (fst b) && Nat.eqb (snd a) (snd b).
Fixpoint add_lookup {A} (t : tag) (x : A) (b : list (tag * list A)) : list (tag * list A) :=
  match b with
  | [] => [(t, [x])]
  | (u, l) :: b' => if tag_eqb t u then (u, l ++ [x]) :: b'
                    else if lexleb (tag_key t) (tag_key u) then (t, [x]) :: b else (u, l) :: add_lookup t x b'
  end.
(** the buckets after a sequence of [add_lookup] calls *)
Definition buckets {A} (calls : list (tag * A)) : list (tag * list A) := fold_left (fun b e => add_lookup (fst e) (snd e) b) calls [].
(** lookups.rs:133-137 iteration order *)
Definition in_order {A} (calls : list (tag * A)) : list A := flat_map snd (buckets calls).
(** lookups.rs:79-82 *)
Definition total_rows {A} (calls : list (tag * A)) : nat := length (in_order calls).
(** lookups.rs:86-89 *)
Definition num_advice_chunks (usable total : nat) : nat := (total + usable - 1) / usable.

(** lookups.rs:140-147: one tuple copied to row [off] of chunk [col] *)
Fixpoint lk_tuple (col j off : nat) (t : list (AV p)) (m : list (cell * pcell)) : option (list (pcell * Assigned p) * list (pcell * pcell) * list (cell * pcell)) :=
  match t with
  | [] => Some ([], [], m)
  | a :: t =>
      match constrain_virtual_equals_external a (PLk col j off) m with
      | None => None
      | Some (cp, m1) => match lk_tuple col (S j) off t m1 with
                         | None => None
                         | Some (w, cp', m2) => Some ((PLk col j off, av_val a) :: w, cp ++ cp', m2)
                         end
      end
  end.
(** lookups.rs:133-150 with constraints; [n] chunks, [usable] rows *)
Fixpoint lk_loop (n usable col off : nat) (l : list (list (AV p))) (m : list (cell * pcell)) : option (list (pcell * Assigned p) * list (pcell * pcell) * list (cell * pcell)) :=
  match l with
  | [] => Some ([], [], m)
  | t :: l =>
      let '(col, off) := if Nat.leb n col then (0, S off) else (col, off) in
      if Nat.ltb col n && Nat.ltb off usable then
        match lk_tuple col 0 off t m with
        | None => None
        | Some (w, cp, m1) => match lk_loop n usable (S col) off l m1 with
                              | None => None
                              | Some (w', cp', m2) => Some (w ++ w', cp ++ cp', m2)
                              end
        end
      else None
  end.
Definition lookup_assign_raw (n usable : nat) (calls : list (tag * list (AV p))) (m : list (cell * pcell)) := lk_loop n usable 0 0 (in_order calls) m.
(** the same with [witness_gen_only]: writes only *)
Fixpoint lk_wit (n usable col off : nat) (l : list (list (AV p))) : option (list (pcell * Assigned p)) :=
  match l with
  | [] => Some []
  | t :: l =>
      let '(col, off) := if Nat.leb n col then (0, S off) else (col, off) in
      if Nat.ltb col n && Nat.ltb off usable then
        option_map (fun w => map (fun ja => (PLk col (fst ja) off, av_val (snd ja))) (combine (seq 0 (length t)) t) ++ w) (lk_wit n usable (S col) off l)
      else None
  end.

(** ** BaseCircuitBuilder *)
(** [BaseCircuitParams] restricted to phase 0 (circuit/mod.rs:25-50) plus the number of usable rows (FlexGateConfig::max_rows) *)
Record params := mkParams { b_ncols : nat; b_nfix : nat; b_nlk : nat; b_lb : option nat; b_rows : nat; b_ninst : nat }.
(** circuit/mod.rs:79-92: is there a lookup table? *)
Definition with_range (c : params) : bool := match b_lb c with Some _ => negb (Nat.eqb (b_nlk c) 0) | None => false end.
(** range/mod.rs:80-86: single advice column, lookup by selector *)
Definition single_col (c : params) : bool := Nat.eqb (b_ncols c) 1.

(** the physical circuit: gates of the layout, lookup selector rows (single-column case), whether lookup columns are live, copies, fixed cells *)
Record phys := mkPhys { ph_lay : lay p; ph_qlk : list nat; ph_lwr : list (pcell * Assigned p); ph_copies : list (pcell * pcell); ph_fixed : list (Fp * pcell); ph_map : list (cell * pcell) }.

(** builder.rs:330-371 [assign_lookups_in_phase] for phase 0 *)
Definition assign_lookups (c : params) (calls : list (tag * list (AV p))) (m : list (cell * pcell))
  : option (list nat * list (pcell * Assigned p) * list (pcell * pcell) * list (cell * pcell)) :=
  if Nat.eqb (total_rows calls) 0 then Some ([], [], [], m)
  else if single_col c then
    match mapM (fun t => match t with
                         | a :: _ => match av_cell a with
                                     | Some cc => match find_p m cc with Some (PAdv (O, r)) => Some r | _ => None end
                                     | None => None end
                         | [] => None end) (in_order calls) with
    | Some q => Some (q, [], [], m)
    | None => None
    end
  else match lookup_assign_raw (b_nlk c) (b_rows c) calls m with Some (w, cp, m') => Some ([], w, cp, m') | None => None end.

(** builder.rs:290-312 [assign_instances]: [zip_eq] panics on different lengths; the copies (instance cell, physical cell) *)
Definition assign_instances (c : params) (inst : list (list (AV p))) (m : list (cell * pcell)) : option (list (pcell * pcell)) :=
  if Nat.eqb (length inst) (b_ninst c) then
    mapM (fun e => match av_cell (snd e) with
                   | Some cc => match find_p m cc with Some a => Some (PInst (fst (fst e)) (snd (fst e)), a) | None => None end
                   | None => None end)
         (flat_map (fun ci => map (fun ra => ((fst ci, fst ra), snd ra)) (combine (seq 0 (length (snd ci))) (snd ci))) (combine (seq 0 (length inst)) inst))
  else None.

(** circuit/mod.rs:163-205 [synthesize], not witness-gen-only. [ext] is the map of external cells loaded before; [eqs], [consts] and [calls] are
    the shared managers' contents, in the order the CPU threads pushed them. *)
Definition synthesize (c : params) (ext : list (cell * pcell)) (cs : list (vctx p)) (eqs : list (cell * cell)) (consts : list (Fp * cell))
  (calls : list (tag * list (AV p))) (inst : list (list (AV p))) : option phys :=
  match assign_with_constraints (b_ncols c) (b_rows c) [] cs with
  | None => None
  | Some L =>
      let m := map (fun e => (fst e, PAdv (snd e))) (l_map L) ++ ext in
      match (if with_range c then assign_lookups c calls m else Some ([], [], [], m)) with
      | None => None
      | Some (q, w, cp, m1) =>
          match copy_assign_raw (b_nfix c) (b_rows c) eqs consts m1 with
          | None => None
          | Some (fixed, cp') =>
              match assign_instances c inst m1 with
              | None => None
              | Some icp => Some (mkPhys L q w (cp ++ cp' ++ icp) fixed m1)
              end
          end
      end
  end.

(** range/mod.rs:139-156 [load_lookup_table]; the rows after the last are filled with the first value, 0 *)
Definition range_table (lb : nat) : list Fp := map (fun i => of_Z p (Z.of_nat i)) (seq 0 (2 ^ lb)).

(** ** Specification: what the backend enforces *)
(** range/mod.rs:117-136 [create_lookup]: every usable row of a lookup column is in the table; with a single advice column, the rows whose
    selector is on (elsewhere 0 is looked up, which is in the table). *)
(** an assignment [A] of all physical cells (advice, lookup advice, fixed, instance, outside) satisfies the circuit *)
Definition phys_sat (c : params) (A : pcell -> Fp) (P : phys) : Prop :=
  psat (fun x => A (PAdv x)) (ph_lay P) /\
  (forall x y, In (x, y) (ph_copies P) -> A x = A y) /\
  (forall v x, In (v, x) (ph_fixed P) -> A x = v) /\
  (with_range c = true -> forall lb, b_lb c = Some lb ->
     (forall r, In r (ph_qlk P) -> In (A (PAdv (0%nat, r))) (range_table lb)) /\
     (single_col c = false -> forall k r, k < b_nlk c -> r < b_rows c -> In (A (PLk k 0 r)) (range_table lb))).
(** value of a virtual cell in a physical assignment *)
Definition vval (P : phys) (A : pcell -> Fp) (d : cell) : Fp := match find_p (ph_map P) d with Some x => A x | None => F0 end.
End Synth.
Arguments phys : clear implicits.
