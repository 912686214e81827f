(** Native (out-of-circuit) part of the optimised Poseidon specification:
    halo2-base/src/poseidon/hasher/mds.rs and hasher/spec.rs.
    Arrays [[F; N]] are lists of length N, matrices are lists of rows; out-of-bounds indexing is
    excluded by the Rust array types and every construction below produces the declared lengths.
    Panics are [None].  The round constants, the MDS matrix and its inverse come from the external
    crate poseidon_rs ([Poseidon128Pow5Gen::constants()], spec.rs:89-90): they are parameters here. *)
From Coq Require Import ZArith List Bool Arith.
From Verif Require Import Field GateProofs Det.
Import ListNotations.
Local Open Scope F_scope.

Section Mds.
Context {p : positive}.
Notation vec := (list (F p)).
Notation mat := (list (list (F p))).

(** array read [v[i]], [m[i][j]] *)
Definition vget (v : vec) (i : nat) : F p := nth i v 0.
Definition ent (m : mat) (i j : nat) : F p := nth j (nth i m []) 0.
(** an array filled by [for i in 0..n { res[i] = f(i) }] *)
Definition tab {A} (n : nat) (f : nat -> A) : list A := map f (seq 0 n).
Definition tab2 (n : nat) (f : nat -> nat -> F p) : mat := tab n (fun i => tab n (fun j => f i j)).

(** [MDSMatrix::mul_vector] (hasher/mds.rs:49-57): [res[i] += self.0[i][j] * v[j]] for j in order. *)
Definition mul_vector (T : nat) (m : mat) (v : vec) : vec :=
  tab T (fun i => bsum T (fun j => ent m i j * vget v j)).
(** [MDSMatrix::identity] (hasher/mds.rs:59-65). *)
Definition mat_identity (T : nat) : mat := tab2 T (fun i j => if (i =? j)%nat then 1 else 0).
(** [MDSMatrix::mul] (hasher/mds.rs:68-78). *)
Definition mat_mul (T : nat) (a b : mat) : mat :=
  tab2 T (fun i j => bsum T (fun k => ent a i k * ent b k j)).
(** [MDSMatrix::transpose] (hasher/mds.rs:80-88). *)
Definition mat_transpose (T : nat) (a : mat) : mat := tab2 T (fun i j => ent a j i).

(** the pivot search of [determinant] (hasher/mds.rs:94-98): first row at or below the current one
    whose leading entry is nonzero; [None] is the [assert!(pivot < N)] panic. *)
Fixpoint find_pivot (rows : mat) : option nat :=
  match rows with
  | [] => None
  | r :: rs => if Fis0 (vget r 0) then option_map S (find_pivot rs) else Some O
  end.
(** [m.swap(pivot, i)] (hasher/mds.rs:99-102) on the rows not yet processed. *)
Definition swap_rows (k : nat) (rows : mat) : mat :=
  match k, rows with
  | O, _ => rows
  | S k', r0 :: rs => nth k' rs [] :: firstn k' rs ++ r0 :: skipn (S k') rs
  | _, [] => []
  end.
(** [MDSMatrix::determinant] (hasher/mds.rs:90-113).  [rows] is the block of rows i.. and columns i..
    that the i-th iteration of the loop still reads (entries to the left are never read again);
    [n] is the number of iterations left and [res] the running product. *)
Fixpoint det_loop (n : nat) (rows : mat) (res : F p) : option (F p) :=
  match n with
  | O => Some res
  | S n' =>
    match find_pivot rows with
    | None => None
    | Some k =>
      let res1 := if (k =? 0)%nat then res else - res in
      match swap_rows k rows with
      | [] => None
      | r0 :: rs =>
        let inv := Finv (vget r0 0) in
        det_loop n'
          (map (fun r => let factor := vget r 0 * inv in
                         tab n' (fun c => vget r (S c) - vget r0 (S c) * factor)) rs)
          (res1 * vget r0 0)
      end
    end
  end.
Definition determinant (n : nat) (m : mat) : option (F p) := det_loop n m 1.

(** [SparseMDSMatrix] (hasher/mds.rs:29-36). *)
Record sparse := mkSparse { sp_row : vec; sp_col_hat : vec }.

(** the array of the determinants of the column-replaced matrices, hasher/mds.rs:154-160 *)
Fixpoint all_some {A} (l : list (option A)) : option (list A) :=
  match l with
  | [] => Some []
  | None :: _ => None
  | Some a :: r => option_map (cons a) (all_some r)
  end.

(** [MDSMatrix::factorise] (hasher/mds.rs:119-171): [None] if RATE + 1 <> T or if a determinant panics
    or if det is not invertible. *)
Definition factorise (T RATE : nat) (m : mat) : option (mat * sparse) :=
  if negb (RATE + 1 =? T)%nat then None else
  let w := tab RATE (fun i => ent m (S i) 0) in
  let m_hat := tab2 RATE (fun i j => ent m (S i) (S j)) in
  match determinant RATE m_hat with
  | None => None
  | Some d =>
    if Fis0 d then None else
    let det_inv := Finv d in
    match all_some (tab RATE (fun j =>
            option_map (fun dj => dj * det_inv)
              (determinant RATE (tab2 RATE (fun i c => if (c =? j)%nat then vget w i else ent m_hat i c))))) with
    | None => None
    | Some w_hat =>
      let m_prime := tab2 T (fun i j => match i, j with
        | S i', S j' => ent m_hat i' j'
        | _, _ => if (i =? j)%nat then 1 else 0 end) in
      let m_prime_prime := tab2 T (fun i j => match i, j with
        | O, _ => ent m 0 j
        | S i', O => vget w_hat i'
        | S _, S _ => if (i =? j)%nat then 1 else 0 end) in
      Some (m_prime,
            mkSparse (tab T (fun i => ent m_prime_prime i 0))
                     (tab RATE (fun j => ent m_prime_prime 0 (S j))))
    end
  end.

(** [OptimizedConstants] (hasher/spec.rs:68-82), [OptimizedPoseidonSpec] (hasher/spec.rs:54-66). *)
Record opt_consts := mkOC { oc_start : list vec; oc_partial : vec; oc_end : list vec }.
Record opt_spec := mkSpec {
  os_rf : nat; os_mds : mat; os_pre_sparse : mat; os_sparse : list sparse; os_consts : opt_consts }.

(** the loop over the partial rounds of [calculate_optimized_constants] (hasher/spec.rs:127-141); it visits the
    round constants from the last partial round to the first; returns the final [acc] and the optimised
    constants in the order of the visits. *)
Fixpoint partial_consts (T : nat) (inv : mat) (cs : list vec) (acc : vec) : vec * vec :=
  match cs with
  | [] => (acc, [])
  | c :: cs' =>
    let tmp := mul_vector T inv acc in
    let acc' := tab T (fun i => (if (i =? 0)%nat then 0 else vget tmp i) + vget c i) in
    let '(a, ks) := partial_consts T inv cs' acc' in (a, vget tmp 0 :: ks)
  end.

(** [OptimizedPoseidonSpec::calculate_optimized_constants] (hasher/spec.rs:105-158): [None] on the assertion, on
    [constants_start[0]] with r_f < 2, and (same condition) on the subtraction [r_f_half - 1]. *)
Definition calculate_optimized_constants (T r_f r_p : nat) (constants : list vec) (inv : mat) : option opt_consts :=
  let h := (r_f / 2)%nat in
  if negb (length constants =? r_f + r_p)%nat then None else
  if (h =? 0)%nat then None else
  let start0 := nth 0 constants [] :: map (mul_vector T inv) (firstn (h - 1) (skipn 1 constants)) in
  let acc0 := nth (h + r_p) constants [] in
  let '(acc, ks) := partial_consts T inv (firstn r_p (skipn h (rev (skipn h constants)))) acc0 in
  Some (mkOC (start0 ++ [mul_vector T inv acc]) (rev ks)
             (map (mul_vector T inv) (firstn (h - 1) (skipn (h + r_p + 1) constants)))).

(** [OptimizedPoseidonSpec::calculate_sparse_matrices] (hasher/spec.rs:160-175).  The sparse matrices are pushed on
    a stack, which is the [reverse()] of the collected vector. *)
Fixpoint sparse_loop (T RATE : nat) (mds_t : mat) (r_p : nat) (acc : mat) (out : list sparse)
  : option (list sparse * mat) :=
  match r_p with
  | O => Some (out, acc)
  | S n => match factorise T RATE acc with
           | None => None
           | Some (m_prime, sp) => sparse_loop T RATE mds_t n (mat_mul T mds_t m_prime) (sp :: out)
           end
  end.
Definition calculate_sparse_matrices (T RATE r_p : nat) (mds : mat) : option (list sparse * mat) :=
  let mds_t := mat_transpose T mds in
  option_map (fun '(sps, acc) => (sps, mat_transpose T acc)) (sparse_loop T RATE mds_t r_p mds_t []).

(** [OptimizedPoseidonSpec::new] (hasher/spec.rs:84-103) for given generator output. *)
Definition opt_spec_new (T RATE r_f r_p : nat) (constants : list vec) (mds mds_inv : mat) : option opt_spec :=
  match calculate_optimized_constants T r_f r_p constants mds_inv with
  | None => None
  | Some cs => match calculate_sparse_matrices T RATE r_p mds with
               | None => None
               | Some (sps, pre) => Some (mkSpec r_f mds pre sps cs)
               end
  end.

(** ** The optimised permutation on field values: what [PoseidonState::permutation] (hasher/state.rs:35-81)
    computes once the inputs and the first round constants have been added to the state. *)
Definition fpow5 (x : F p) : F p := x * x * (x * x) * x.
Definition n_sbox_full (s k : vec) : vec := map (fun '(x, c) => fpow5 x + c) (combine s k).
Definition n_sbox_part (s : vec) (k : F p) : vec :=
  match s with [] => [] | x :: r => (fpow5 x + k) :: r end.
Definition n_sparse (T : nat) (sp : sparse) (s : vec) : vec :=
  bsum T (fun j => vget (sp_row sp) j * vget s j) ::
  map (fun '(c, x) => vget s 0 * c + x) (combine (sp_col_hat sp) (skipn 1 s)).
Definition n_rounds (T : nat) (m : mat) (ks : list vec) (s : vec) : vec :=
  fold_left (fun s k => mul_vector T m (n_sbox_full s k)) ks s.
Definition n_partial (T : nat) (ks : vec) (sps : list sparse) (s : vec) : vec :=
  fold_left (fun s '(k, sp) => n_sparse T sp (n_sbox_part s k)) (combine ks sps) s.
Definition opt_rounds (T : nat) (sp : opt_spec) (s : vec) : vec :=
  let cs := os_consts sp in
  let s1 := n_rounds T (os_mds sp) (firstn (os_rf sp / 2 - 1) (skipn 1 (oc_start cs))) s in
  let s2 := mul_vector T (os_pre_sparse sp) (n_sbox_full s1 (last (oc_start cs) [])) in
  let s3 := n_partial T (oc_partial cs) (os_sparse sp) s2 in
  let s4 := n_rounds T (os_mds sp) (oc_end cs) s3 in
  mul_vector T (os_mds sp) (n_sbox_full s4 (repeat 0 T)).
(** [absorb_with_pre_constants] (hasher/state.rs:121-158) followed by the rounds, on values *)
Definition n_absorb (T : nat) (pre : vec) (inputs s : vec) : vec :=
  tab T (fun i =>
    if (i =? 0)%nat then vget s i + vget pre i
    else if (i <=? length inputs)%nat then vget s i + vget inputs (i - 1) + vget pre i
    else if (i =? length inputs + 1)%nat then vget s i + (1 + vget pre i)
    else vget s i + vget pre i).
Definition opt_perm (T : nat) (sp : opt_spec) (inputs s : vec) : vec :=
  opt_rounds T sp (n_absorb T (nth 0 (oc_start (os_consts sp)) []) inputs s).
End Mds.
