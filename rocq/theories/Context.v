(** Model of [halo2_base::Context] and friends (halo2-base/src/lib.rs).
    Simplifications (all of them conservative for the properties proved):
    - [usize] is [nat], [isize] is [Z]: no overflow of sizes.
    - a [&'static str] type id is a [nat] code.
    - the [Arc<Mutex<CopyConstraintManager>>] shared by all contexts and the lookup manager that a range chip uses
      are fields of the state [st] threaded through the operations of ONE context; what other
      threads push meanwhile is handled in Threads.v.
    - a Rust panic is [None]. *)
From Coq Require Import ZArith Lia List Bool.
From Verif Require Import Field.
Import ListNotations.
Local Open Scope Z_scope.

(** halo2-base/src/lib.rs:111-119 [ContextCell] (and lib.rs:108 [ContextTag]) *)
Record cell := mkCell { c_tid : nat; c_ctx : nat; c_off : nat }.
Definition tag := (nat * nat)%type.

Section Model.
Context {p : positive}.
Notation Fp := (F p).

(** halo2_proofs [Assigned<F>]: a field element or a not-yet-inverted fraction *)
Inductive Assigned := AZero | ATriv (a : Fp) | ARat (n d : Fp).
(** halo2_proofs [Assigned::evaluate]; division by zero gives 0 *)
Definition aeval (v : Assigned) : Fp :=
  match v with AZero => F0 | ATriv a => a | ARat n d => (n * Finv d)%F end.

(** halo2-base/src/lib.rs:134-141 [AssignedValue] *)
Record AV := mkAV { av_val : Assigned; av_cell : option cell }.

(** halo2-base/src/lib.rs:66-80 [QuantumCell] *)
Inductive qcell :=
| Existing (a : AV) | Witness (w : Fp) | WitnessFraction (w : Assigned) | Constant (c : Fp).

(** halo2-base/src/lib.rs:178-209 [Context], plus copy_constraints.rs:31-49 (advice_equalities, constant_equalities)
    and lookups.rs:44-56 (cells_to_lookup, as a log of (tag, cell) in push order) *)
Record st := mkSt {
  wgo : bool; s_phase : nat; s_tid : nat; s_cid : nat;
  advice : list Assigned; zero_cell : option AV; selector : list bool;
  adv_eqs : list (cell * cell); const_eqs : list (Fp * cell);
  lookups : list (tag * AV) }.

(** halo2-base/src/lib.rs:218-235 [Context::new] with an empty copy manager *)
Definition new_ctx (wg : bool) (phase tid cid : nat) : st :=
  mkSt wg phase tid cid [] None [] [] [] [].

Definition M (A : Type) := st -> option (A * st).
Definition ret {A} (a : A) : M A := fun s => Some (a, s).
Definition panic {A} : M A := fun _ => None.
Definition bind {A B} (m : M A) (f : A -> M B) : M B :=
  fun s => match m s with None => None | Some (a, s') => f a s' end.
Definition lift {A} (o : option A) : M A :=
  fun s => match o with None => None | Some a => Some (a, s) end.
Definition assert_ (b : bool) : M unit := if b then ret tt else panic.

(** loops: [iter.map(f).collect()] and [for x in l { f(x) }] *)
Fixpoint mapM {A B} (f : A -> M B) (l : list A) : M (list B) :=
  match l with
  | [] => ret []
  | x :: l => bind (f x) (fun y => bind (mapM f l) (fun ys => ret (y :: ys)))
  end.
Fixpoint iterM {A} (f : A -> M unit) (l : list A) : M unit :=
  match l with
  | [] => ret tt
  | x :: l => bind (f x) (fun _ => iterM f l)
  end.
Fixpoint foldM {A B} (f : B -> A -> M B) (l : list A) (b : B) : M B :=
  match l with
  | [] => ret b
  | x :: l => bind (f b x) (fun b' => foldM f l b')
  end.

(** halo2-base/src/lib.rs:153-158 [AssignedValue::value]: panics on fractions *)
Definition av_value (a : AV) : option Fp :=
  match av_val a with ATriv x => Some x | _ => None end.
(** halo2-base/src/lib.rs:93-102 [QuantumCell::value] *)
Definition q_value (q : qcell) : option Fp :=
  match q with
  | Existing a => av_value a | Witness w => Some w
  | WitnessFraction _ => None | Constant c => Some c
  end.

Definition set_advice (s : st) (l : list Assigned) : st :=
  mkSt (wgo s) (s_phase s) (s_tid s) (s_cid s) l (zero_cell s) (selector s) (adv_eqs s) (const_eqs s) (lookups s).
Definition set_selector (s : st) (l : list bool) : st :=
  mkSt (wgo s) (s_phase s) (s_tid s) (s_cid s) (advice s) (zero_cell s) l (adv_eqs s) (const_eqs s) (lookups s).
Definition set_zero (s : st) (z : option AV) : st :=
  mkSt (wgo s) (s_phase s) (s_tid s) (s_cid s) (advice s) z (selector s) (adv_eqs s) (const_eqs s) (lookups s).
Definition push_eq (s : st) (e : cell * cell) : st :=
  mkSt (wgo s) (s_phase s) (s_tid s) (s_cid s) (advice s) (zero_cell s) (selector s) (adv_eqs s ++ [e]) (const_eqs s) (lookups s).
Definition push_const (s : st) (e : Fp * cell) : st :=
  mkSt (wgo s) (s_phase s) (s_tid s) (s_cid s) (advice s) (zero_cell s) (selector s) (adv_eqs s) (const_eqs s ++ [e]) (lookups s).
Definition push_lookup (s : st) (e : tag * AV) : st :=
  mkSt (wgo s) (s_phase s) (s_tid s) (s_cid s) (advice s) (zero_cell s) (selector s) (adv_eqs s) (const_eqs s) (lookups s ++ [e]).
Definition push_advice (s : st) (v : Assigned) : st := set_advice s (advice s ++ [v]).

Definition alen (s : st) : nat := length (advice s).
(** the cell at offset [i] of the context *)
Definition cl (s : st) (i : nat) : cell := mkCell (s_tid s) (s_cid s) i.

(** halo2-base/src/lib.rs:247-249 [latest_cell] *)
Definition latest_cell (s : st) : cell := cl s (alen s - 1).

(** halo2-base/src/lib.rs:252-282 [assign_cell] *)
Definition assign_cell (q : qcell) : M unit := fun s =>
  match q with
  | Existing a =>
      let s1 := push_advice s (av_val a) in
      if wgo s then Some (tt, s1)
      else match av_cell a with
           | None => None
           | Some c => Some (tt, push_eq s1 (latest_cell s1, c))
           end
  | Witness w => Some (tt, push_advice s (ATriv w))
  | WitnessFraction w => Some (tt, push_advice s w)
  | Constant c =>
      let s1 := push_advice s (ATriv c) in
      if wgo s then Some (tt, s1)
      else Some (tt, push_const s1 (c, latest_cell s1))
  end.

Definition mk_av (s : st) (v : Assigned) (i : nat) : AV :=
  mkAV v (if wgo s then None else Some (cl s i)).

(** halo2-base/src/lib.rs:285-290 [last] followed by [unwrap] *)
Definition ctx_last : M AV := fun s =>
  match nth_error (advice s) (alen s - 1) with
  | None => None
  | Some v => Some (mk_av s v (alen s - 1), s)
  end.

(** halo2-base/src/lib.rs:297-310 [get]; a negative result of len + offset wraps around in Rust and fails the assert *)
Definition ctx_get (o : Z) : M AV := fun s =>
  let i := if o <? 0 then Z.of_nat (alen s) + o else o in
  if i <? 0 then None else
  match nth_error (advice s) (Z.to_nat i) with
  | None => None
  | Some v => Some (mk_av s v (Z.to_nat i), s)
  end.
Definition ctx_len : M nat := fun s => Some (alen s, s).
Definition ctx_wgo : M bool := fun s => Some (wgo s, s).

(** halo2-base/src/lib.rs:316-324 [constrain_equal] *)
Definition constrain_equal (a b : AV) : M unit := fun s =>
  if wgo s then Some (tt, s)
  else match av_cell a, av_cell b with
       | Some x, Some y => Some (tt, push_eq s (x, y))
       | _, _ => None
       end.

Definition resize (l : list bool) (n : nat) : list bool := firstn n l ++ repeat false (n - length l).
Fixpoint set_true (l : list bool) (i : nat) : option (list bool) :=
  match l, i with
  | [], _ => None
  | _ :: l, O => Some (true :: l)
  | b :: l, S i => match set_true l i with None => None | Some l' => Some (b :: l') end
  end.

Definition enable_gate (row : nat) (o : Z) : M unit := fun s =>
  let i := Z.of_nat row + o in
  if i <? 0 then None else
  match set_true (selector s) (Z.to_nat i) with
  | None => None
  | Some l => Some (tt, set_selector s l)
  end.

Definition resize_selector : M unit := fun s =>
  Some (tt, set_selector s (resize (selector s) (alen s))).

(** halo2-base/src/lib.rs:331-356 [assign_region] *)
Definition assign_region (inputs : list qcell) (offs : list Z) : M unit :=
  bind ctx_wgo (fun w =>
  if w then iterM assign_cell inputs
  else bind ctx_len (fun row =>
       bind (iterM assign_cell inputs) (fun _ =>
       bind resize_selector (fun _ =>
       iterM (enable_gate row) offs)))).

(** halo2-base/src/lib.rs:366-376 [assign_region_last] *)
Definition assign_region_last (inputs : list qcell) (offs : list Z) : M AV :=
  bind (assign_region inputs offs) (fun _ => ctx_last).

Definition push_eq_offs (row : nat) (e : Z * Z) : M unit := fun s =>
  let i := Z.of_nat row + fst e in let j := Z.of_nat row + snd e in
  if (i <? 0) || (j <? 0) then None
  else Some (tt, push_eq s (cl s (Z.to_nat i), cl s (Z.to_nat j))).

(** halo2-base/src/lib.rs:385-427 [assign_region_smart]; [external_equality] is always empty in the library and omitted;
    a negative index, which Rust would wrap around, is a panic here (never happens in the library). *)
Definition assign_region_smart (inputs : list qcell) (offs : list Z) (eqs : list (Z * Z)) : M unit :=
  bind ctx_len (fun row =>
  bind (assign_region inputs offs) (fun _ =>
  bind ctx_wgo (fun w =>
  if w then ret tt else iterM (push_eq_offs row) eqs))).

(** halo2-base/src/lib.rs:431-449 [assign_witnesses] *)
Definition assign_witnesses (ws : list Fp) : M (list AV) :=
  bind ctx_len (fun row =>
  bind (assign_region (map Witness ws) []) (fun _ => fun s =>
    Some (map (fun '(i, v) => mk_av s v (row + i)%nat)
              (combine (seq 0 (alen s - row)) (skipn row (advice s))), s))).

(** halo2-base/src/lib.rs:453-459 [load_witness] *)
Definition load_witness (w : Fp) : M AV :=
  bind (assign_cell (Witness w)) (fun _ =>
  bind ctx_wgo (fun wg => bind (if wg then ret tt else resize_selector) (fun _ => ctx_last))).
(** halo2-base/src/lib.rs:463-469 [load_constant] *)
Definition load_constant (c : Fp) : M AV :=
  bind (assign_cell (Constant c)) (fun _ =>
  bind ctx_wgo (fun wg => bind (if wg then ret tt else resize_selector) (fun _ => ctx_last))).
(** halo2-base/src/lib.rs:473-475 [load_constants] *)
Definition load_constants (cs : list Fp) : M (list AV) := mapM load_constant cs.
(** halo2-base/src/lib.rs:478-485 [load_zero] *)
Definition load_zero : M AV := fun s =>
  match zero_cell s with
  | Some z => Some (z, s)
  | None => bind (load_constant F0) (fun z => fun s' => Some (z, set_zero s' (Some z))) s
  end.
(** halo2-base/src/gates/flex_gate/mod.rs:333-337 [assert_is_const] *)
Definition assert_is_const (a : AV) (c : Fp) : M unit := fun s =>
  if wgo s then Some (tt, s)
  else match av_cell a with None => None | Some x => Some (tt, push_const s (c, x)) end.
(** halo2-base/src/gates/range/mod.rs:555-559 [add_cell_to_lookup] and virtual_region/lookups.rs:70-77 [add_lookup] *)
Definition add_cell_to_lookup (a : AV) : M unit := fun s =>
  Some (tt, push_lookup s ((s_tid s, s_cid s), a)).

(** ** What an (arbitrary, possibly malicious) assignment of field elements to cells must satisfy *)
(** flex_gate/mod.rs:79-90 [create_gate]: q * (a + b*c - out) = 0 on four consecutive rows *)
Definition gate_at (sg : cell -> Fp) (s : st) (i : nat) : Prop :=
  (sg (cl s i) + sg (cl s (i + 1)) * sg (cl s (i + 2)))%F = sg (cl s (i + 3)).

(** value that an assignment gives to an assigned value *)
Definition avs (sg : cell -> Fp) (a : AV) : Fp :=
  match av_cell a with Some c => sg c | None => F0 end.

(** [Sat lb sg s]: assignment [sg] satisfies every gate, copy constraint, constant and lookup recorded in [s],
    with the range table [0, 2^lb) (range/mod.rs:118-157) *)
Record Sat (lb : nat) (sg : cell -> Fp) (s : st) : Prop := mkSat {
  sat_gate : forall i, nth_error (selector s) i = Some true -> gate_at sg s i;
  sat_eq : forall a b, In (a, b) (adv_eqs s) -> sg a = sg b;
  sat_const : forall c a, In (c, a) (const_eqs s) -> sg a = c;
  sat_lookup : forall t a, In (t, a) (lookups s) -> 0 <= val (avs sg a) < 2 ^ Z.of_nat lb }.

(** the value a quantum cell gets: existing cells and constants are pinned, fresh witnesses are free *)
Definition qsem (sg : cell -> Fp) (q : qcell) (v : Fp) : Prop :=
  match q with
  | Existing a => v = avs sg a
  | Constant c => v = c
  | Witness _ => True
  | WitnessFraction _ => True
  end.

(** [Agree rho s]: rho gives the cells of this context the advice values computed by the library (honest prover) *)
Definition Agree (rho : cell -> Fp) (s : st) : Prop :=
  forall i v, nth_error (advice s) i = Some v -> rho (cl s i) = aeval v.

(** an assigned value is consistent with rho: its carried value is what rho has in its cell *)
Definition av_ok (rho : cell -> Fp) (a : AV) : Prop :=
  av_cell a <> None /\ avs rho a = aeval (av_val a).
Definition q_ok (rho : cell -> Fp) (q : qcell) : Prop :=
  match q with Existing a => av_ok rho a | _ => True end.

End Model.

Arguments Assigned : clear implicits. Arguments AV : clear implicits. Arguments qcell : clear implicits.
Arguments st : clear implicits. Arguments M : clear implicits.

Declare Scope monad_scope.
Delimit Scope monad_scope with monad.
Notation "x <- m ;; k" := (bind m (fun x => k)) (at level 61, m at next level, right associativity) : monad_scope.
Notation "m ;;; k" := (bind m (fun _ => k)) (at level 61, right associativity) : monad_scope.
