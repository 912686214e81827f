(** Model of the layout pass: virtual columns (contexts) to physical advice columns.
    halo2-base/src/gates/flex_gate/threads/single_phase.rs: [assign_with_constraints] (165-265) and [assign_witnesses] (267-318).
    Simplifications: the region is the list of everything written to it (advice values, copies, selectors); the generic ROTATIONS is 4, the only
    instance in the library (line 160); [use_unknown] only hides values from the backend and is ignored; with [max_rows = 0] Rust's
    [max_rows - 1] underflows, here the comparison is [max_rows <= row_offset + 1]. *)
From Coq Require Import ZArith Lia List Bool.
From Verif Require Import Field Spec Context ContextProofs SatCheck.
Import ListNotations.

(** physical advice cell: (index of the basic-gate column, row) *)
Definition pc := (nat * nat)%type.
Definition pc_eqb (a b : pc) : bool := Nat.eqb (fst a) (fst b) && Nat.eqb (snd a) (snd b).
Lemma pc_eqb_eq a b : pc_eqb a b = true <-> a = b.
Proof. unfold pc_eqb. rewrite andb_true_iff, !Nat.eqb_eq. destruct a, b; cbn. split; [intros [-> ->]; auto|intros [= -> ->]; auto]. Qed.

Section Layout.
Context {p : positive}.
Notation Fp := (F p).

(** the part of a [Context] that the layout reads (lib.rs:178-209) *)
Record vctx := mkVctx { vc_tid : nat; vc_cid : nat; vc_adv : list (Assigned p); vc_sel : list bool }.
Definition vctx_of (s : st p) : vctx := mkVctx (s_tid s) (s_cid s) (advice s) (selector s).
Definition vcell (c : vctx) (i : nat) : cell := mkCell (vc_tid c) (vc_cid c) i.

(** state of the pass: [copy_manager.assigned_advices] (in insertion order), region writes, region copies, enabled selectors, break points,
    [gate_index], [row_offset] *)
Record lay := mkLay { l_map : list (cell * pc); l_wr : list (pc * Assigned p); l_cp : list (pc * pc); l_en : list pc; l_bp : list nat; l_g : nat; l_r : nat }.

(** [HashMap::get] *)
Definition find_cell (m : list (cell * pc)) (c : cell) : option pc :=
  option_map snd (find (fun e => cell_eqb (fst e) c) m).
(** lines 206-216: insert; overwriting with a different raw cell panics *)
Definition insert_cell (m : list (cell * pc)) (c : cell) (x : pc) : option (list (cell * pc)) :=
  match find_cell m c with
  | Some old => if pc_eqb old x then Some m else None
  | None => Some (m ++ [(c, x)])
  end.
(** line 220: [(q && row_offset + ROTATIONS > max_rows) || row_offset >= max_rows - 1] *)
Definition brk (maxr row : nat) (q : bool) : bool := (q && Nat.ltb maxr (row + 4)) || Nat.leb maxr (row + 1).
(** lines 226-233: the overlap safety check at a break in front of offset [i] (only when [i + 2 >= ROTATIONS]) *)
Definition overlap_ok (sel : list bool) (i : nat) : bool :=
  if Nat.leb 4 (i + 2) then negb (nth (i - 1) sel false) && negb (nth (i - 2) sel false) else true.
(** lines 196-256: body of the inner loop, for the cell at offset [i] of context [c] *)
Definition place (ncols maxr : nat) (c : vctx) (s : lay) (i : nat) (v : Assigned p) (q : bool) : option lay :=
  let x := (l_g s, l_r s) in
  match insert_cell (l_map s) (vcell c i) x with
  | None => None
  | Some m =>
      if brk maxr (l_r s) q then
        if overlap_ok (vc_sel c) i then
          if Nat.ltb (S (l_g s)) ncols then
            let y := (S (l_g s), 0) in
            Some (mkLay m (l_wr s ++ [(x, v); (y, v)]) (l_cp s ++ [(y, x)]) (if q then l_en s ++ [y] else l_en s) (l_bp s ++ [l_r s]) (S (l_g s)) 1)
          else None
        else None
      else Some (mkLay m (l_wr s ++ [(x, v)]) (l_cp s) (if q then l_en s ++ [x] else l_en s) (l_bp s) (l_g s) (S (l_r s)))
  end.
Fixpoint place_all (ncols maxr : nat) (c : vctx) (s : lay) (i : nat) (l : list (Assigned p * bool)) : option lay :=
  match l with
  | [] => Some s
  | (v, q) :: l => match place ncols maxr c s i v q with None => None | Some s' => place_all ncols maxr c s' (S i) l end
  end.
(** lines 186-195: one context; empty contexts are skipped *)
Definition place_ctx (ncols maxr : nat) (s : lay) (c : vctx) : option lay :=
  match vc_adv c with
  | [] => Some s
  | _ => if Nat.ltb (l_g s) ncols then
           if Nat.eqb (length (vc_sel c)) (length (vc_adv c)) then place_all ncols maxr c s 0 (combine (vc_adv c) (vc_sel c)) else None
         else None
  end.
Fixpoint place_ctxs (ncols maxr : nat) (s : lay) (cs : list vctx) : option lay :=
  match cs with [] => Some s | c :: cs => match place_ctx ncols maxr s c with None => None | Some s' => place_ctxs ncols maxr s' cs end end.
(** lines 174-265. [m0] is the content of [copy_manager.assigned_advices] before the pass: empty, or cells loaded from outside, or (second run of
    keygen) the map left by the first run *)
Definition assign_with_constraints (ncols maxr : nat) (m0 : list (cell * pc)) (cs : list vctx) : option lay :=
  place_ctxs ncols maxr (mkLay m0 [] [] [] [] 0 0) cs.

(** lines 275-318 [assign_witnesses]: writes only, driven by the break points; [bp] is the iterator, its head the current [break_point] *)
Fixpoint wit_loop (ncols : nat) (bp : list nat) (g row : nat) (l : list (Assigned p)) : option (list (pc * Assigned p) * (list nat * (nat * nat))) :=
  match l with
  | [] => Some ([], (bp, (g, row)))
  | v :: l =>
      match bp with
      | b :: bp' =>
          if Nat.eqb b row then
            if Nat.ltb (S g) ncols then
              option_map (fun r => (((g, row), v) :: ((S g, 0), v) :: fst r, snd r)) (wit_loop ncols bp' (S g) 1 l)
            else None
          else option_map (fun r => (((g, row), v) :: fst r, snd r)) (wit_loop ncols bp g (S row) l)
      | [] => option_map (fun r => (((g, row), v) :: fst r, snd r)) (wit_loop ncols [] g (S row) l)
      end
  end.
Definition assign_witnesses_raw (ncols : nat) (cs : list vctx) (bp : list nat) : option (list (pc * Assigned p)) :=
  match ncols with
  | O => if Nat.eqb (length (flat_map vc_adv cs)) 0 then Some [] else None
  | _ => option_map fst (wit_loop ncols bp 0 0 (flat_map vc_adv cs))
  end.
(** ** the constraints the backend sees after the pass: region copies and vertical gates [a + b * c = d] *)
Definition psat (asg : pc -> Fp) (L : lay) : Prop :=
  (forall x y, In (x, y) (l_cp L) -> asg x = asg y) /\
  (forall g r, In (g, r) (l_en L) -> asg (g, r) + asg (g, S r) * asg (g, S (S r)) = asg (g, S (S (S r))))%F.
(** the gates recorded in the virtual contexts *)
Definition vgates (sg : cell -> Fp) (cs : list vctx) : Prop :=
  forall c i, In c cs -> nth_error (vc_sel c) i = Some true ->
    (sg (vcell c i) + sg (vcell c (i + 1)) * sg (vcell c (i + 2)) = sg (vcell c (i + 3)))%F.

(** the value a physical assignment gives to a virtual cell *)
Definition loc_val (L : lay) (asg : pc -> Fp) (d : cell) : Fp := match find_cell (l_map L) d with Some x => asg x | None => F0 end.
(** halo2-base/src/gates/flex_gate/threads/multi_phase.rs:135-140 [calculate_params]: number of advice columns of one phase *)
Definition calc_num_advice (maxr total : nat) : nat := (total + maxr - 1) / maxr.
End Layout.
Arguments vctx : clear implicits. Arguments lay : clear implicits.
