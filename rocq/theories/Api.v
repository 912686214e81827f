(** Programs over the public API: a circuit author's closure that calls GateChip / RangeChip / Context operations on one context.
    Every argument is a fresh witness, a constant, or the result of an earlier call (by index in the list of all values returned so far).
    Used to state the properties that quantify over "every sequence of chip operations" (C18-C22). *)
From Coq Require Import ZArith Lia List Bool.
From Verif Require Import Field Context Utils Gate Range.
Import ListNotations.
Local Open Scope Z_scope.
Local Open Scope monad_scope.

Section Api.
Context {p : positive}.
Notation Fp := (F p).
Notation qc := (qcell p).
Notation AV := (AV p).

(** a [QuantumCell] argument *)
Inductive arg := Ref (i : nat) | Wit (w : Fp) | Cst (c : Fp).

Inductive op :=
(* Context, lib.rs *)
| OLoadWitness (w : Fp) | OAssignWitnesses (ws : list Fp) | OLoadConstant (c : Fp) | OLoadConstants (cs : list Fp) | OLoadZero
| OConstrainEqual (a b : nat) | OAssertConst (a : nat) (c : Fp) | OAssertBit (a : nat)
(* GateInstructions, flex_gate/mod.rs *)
| OAdd (a b : arg) | OInc (a : arg) | OSub (a b : arg) | ODec (a : arg) | OSubMul (a b c : arg) | ONeg (a : arg) | OMul (a b : arg)
| OMulAdd (a b c : arg) | OMulNot (a b : arg) | ODivUnsafe (a b : arg)
| OSum (l : list arg) | OPartialSums (l : list arg) | OAccProd (a b : list arg)
| OInnerProduct (a b : list arg) | OInnerProductLeftLast (a b : list arg) | OInnerProductLeft (a b : list arg) | OInnerProductWithSums (a b : list arg)
| OSumProducts (l : list (Fp * arg * arg)) (v : arg)
| OOr (a b : arg) | OAnd (a b : arg) | OXor (a b : arg) | ONot (a : arg) | OSelect (a b s : arg) | OOrAnd (a b c : arg)
| OBitsToIndicator (l : list nat) | OIdxToIndicator (a : arg) (len : nat) | OSelectByIndicator (l : list arg) (ind : list nat)
| OSelectFromIdx (l : list arg) (i : arg) | OSelectArray (l : list (list nat)) (ind : list nat)
| OIsZero (a : nat) | OIsEqual (a b : arg) | ONumToBits (a n : nat) | OBitsToNum (l : list nat) | OPowVar (a e n : nat)
| OLagrange (l : list (nat * nat)) (x : nat)
(* RangeInstructions, range/mod.rs *)
| ORangeCheck (a n : nat) | OCheckLessThan (a b : arg) (n : nat) | OCheckLessThanSafe (a : nat) (b : Z) | OCheckBigLessThanSafe (a : nat) (b : Z)
| OIsLessThan (a b : arg) (n : nat) | OIsLessThanSafe (a : nat) (b : Z) | OIsBigLessThanSafe (a : nat) (b : Z)
| ODivMod (a : arg) (b : Z) (n : nat) | ODivModVar (a b : arg) (n m : nat) | OGetLastBit (a n : nat)
| ODecomposeLe (a b n : nat) | OLimbsToNum (l : list nat) (b : nat) | ORightRotate (k n a : nat) | OLeftRotate (k n a : nat).

(** values returned so far *)
Definition env := list AV.
Definition getv (e : env) (i : nat) : M p AV := lift (nth_error e i).
Definition geta (e : env) (a : arg) : M p qc :=
  match a with Ref i => x <- getv e i ;; ret (Existing x) | Wit w => ret (Witness w) | Cst c => ret (Constant c) end.
Definition getvs (e : env) (l : list nat) : M p (list AV) := mapM (getv e) l.
Definition getas (e : env) (l : list arg) : M p (list qc) := mapM (geta e) l.
Definition one (m : M p AV) : M p env := x <- m ;; ret [x].
Definition nil_ (m : M p unit) : M p env := m ;;; ret [].
Definition pair_ (m : M p (AV * AV)) : M p env := x <- m ;; ret [fst x; snd x].
Definition o1 (f : qc -> M p AV) e a := x <- geta e a ;; one (f x).
Definition o2 (f : qc -> qc -> M p AV) e a b := x <- geta e a ;; y <- geta e b ;; one (f x y).
Definition o3 (f : qc -> qc -> qc -> M p AV) e a b c := x <- geta e a ;; y <- geta e b ;; z <- geta e c ;; one (f x y z).
Definition triple (e : env) (t : Fp * arg * arg) : M p (Fp * qc * qc) :=
  let '(c, a, b) := t in x <- geta e a ;; y <- geta e b ;; ret (c, x, y).
Definition point (e : env) (t : nat * nat) : M p (AV * AV) := x <- getv e (fst t) ;; y <- getv e (snd t) ;; ret (x, y).

(** one API call; returns the values it returned *)
Definition exec (lb : nat) (o : op) (e : env) : M p env :=
  match o with
  | OLoadWitness w => one (load_witness w)
  | OAssignWitnesses ws => assign_witnesses ws
  | OLoadConstant c => one (load_constant c)
  | OLoadConstants cs => load_constants cs
  | OLoadZero => one load_zero
  | OConstrainEqual a b => x <- getv e a ;; y <- getv e b ;; nil_ (constrain_equal x y)
  | OAssertConst a c => x <- getv e a ;; nil_ (assert_is_const x c)
  | OAssertBit a => x <- getv e a ;; nil_ (assert_bit x)
  | OAdd a b => o2 add e a b | OInc a => o1 inc e a | OSub a b => o2 sub e a b | ODec a => o1 dec e a
  | OSubMul a b c => o3 sub_mul e a b c | ONeg a => o1 neg e a | OMul a b => o2 mul e a b
  | OMulAdd a b c => o3 mul_add e a b c | OMulNot a b => o2 mul_not e a b | ODivUnsafe a b => o2 div_unsafe e a b
  | OSum l => x <- getas e l ;; one (sum x)
  | OPartialSums l => x <- getas e l ;; partial_sums x
  | OAccProd a b => x <- getas e a ;; y <- getas e b ;; accumulated_product x y
  | OInnerProduct a b => x <- getas e a ;; y <- getas e b ;; one (inner_product x y)
  | OInnerProductLeftLast a b => x <- getas e a ;; y <- getas e b ;; pair_ (inner_product_left_last x y)
  | OInnerProductLeft a b => x <- getas e a ;; y <- getas e b ;; r <- inner_product_left x y ;; ret (fst r :: snd r)
  | OInnerProductWithSums a b => x <- getas e a ;; y <- getas e b ;; inner_product_with_sums x y
  | OSumProducts l v => x <- mapM (triple e) l ;; y <- geta e v ;; one (sum_products_with_coeff_and_var x y)
  | OOr a b => o2 or e a b | OAnd a b => o2 and e a b | OXor a b => o2 xor e a b | ONot a => o1 not e a
  | OSelect a b c => o3 select e a b c | OOrAnd a b c => o3 or_and e a b c
  | OBitsToIndicator l => x <- getvs e l ;; bits_to_indicator x
  | OIdxToIndicator a n => x <- geta e a ;; idx_to_indicator x n
  | OSelectByIndicator l i => x <- getas e l ;; y <- getvs e i ;; one (select_by_indicator x y)
  | OSelectFromIdx l i => x <- getas e l ;; y <- geta e i ;; one (select_from_idx x y)
  | OSelectArray l i => x <- mapM (getvs e) l ;; y <- getvs e i ;; select_array_by_indicator x y
  | OIsZero a => x <- getv e a ;; one (is_zero x)
  | OIsEqual a b => o2 is_equal e a b
  | ONumToBits a n => x <- getv e a ;; num_to_bits x n
  | OBitsToNum l => x <- getvs e l ;; one (bits_to_num x)
  | OPowVar a b n => x <- getv e a ;; y <- getv e b ;; one (pow_var x y n)
  | OLagrange l a => x <- mapM (point e) l ;; y <- getv e a ;; pair_ (lagrange_and_eval x y)
  | ORangeCheck a n => x <- getv e a ;; nil_ (range_check lb x n)
  | OCheckLessThan a b n => x <- geta e a ;; y <- geta e b ;; nil_ (check_less_than lb x y n)
  | OCheckLessThanSafe a b => x <- getv e a ;; nil_ (check_less_than_safe lb x b)
  | OCheckBigLessThanSafe a b => x <- getv e a ;; nil_ (check_big_less_than_safe lb x b)
  | OIsLessThan a b n => x <- geta e a ;; y <- geta e b ;; one (is_less_than lb x y n)
  | OIsLessThanSafe a b => x <- getv e a ;; one (is_less_than_safe lb x b)
  | OIsBigLessThanSafe a b => x <- getv e a ;; one (is_big_less_than_safe lb x b)
  | ODivMod a b n => x <- geta e a ;; pair_ (div_mod lb x b n)
  | ODivModVar a b n m => x <- geta e a ;; y <- geta e b ;; pair_ (div_mod_var lb x y n m)
  | OGetLastBit a n => x <- getv e a ;; one (get_last_bit lb x n)
  | ODecomposeLe a b n => x <- getv e a ;; decompose_le lb x b n
  | OLimbsToNum l b => x <- getvs e l ;; one (limbs_to_num x b)
  | ORightRotate k n a => x <- getv e a ;; one (const_right_rotate lb k n x)
  | OLeftRotate k n a => x <- getv e a ;; one (const_left_rotate lb k n x)
  end.

(** a whole program: the values returned by each call are appended to the environment *)
Fixpoint run_prog (lb : nat) (l : list op) (e : env) : M p env :=
  match l with
  | [] => ret e
  | o :: l => r <- exec lb o e ;; run_prog lb l (e ++ r)
  end.

(** forgetting the witness values of a program: what is left is its shape *)
Definition era (a : arg) : arg := match a with Wit _ => Wit F0 | _ => a end.
Definition erase (o : op) : op :=
  match o with
  | OLoadWitness _ => OLoadWitness F0
  | OAssignWitnesses ws => OAssignWitnesses (map (fun _ => F0) ws)
  | OLoadConstant _ | OLoadConstants _ | OLoadZero | OConstrainEqual _ _ | OAssertConst _ _ | OAssertBit _ => o
  | OAdd a b => OAdd (era a) (era b) | OInc a => OInc (era a) | OSub a b => OSub (era a) (era b) | ODec a => ODec (era a)
  | OSubMul a b c => OSubMul (era a) (era b) (era c) | ONeg a => ONeg (era a) | OMul a b => OMul (era a) (era b)
  | OMulAdd a b c => OMulAdd (era a) (era b) (era c) | OMulNot a b => OMulNot (era a) (era b) | ODivUnsafe a b => ODivUnsafe (era a) (era b)
  | OSum l => OSum (map era l) | OPartialSums l => OPartialSums (map era l) | OAccProd a b => OAccProd (map era a) (map era b)
  | OInnerProduct a b => OInnerProduct (map era a) (map era b) | OInnerProductLeftLast a b => OInnerProductLeftLast (map era a) (map era b)
  | OInnerProductLeft a b => OInnerProductLeft (map era a) (map era b) | OInnerProductWithSums a b => OInnerProductWithSums (map era a) (map era b)
  | OSumProducts l v => OSumProducts (map (fun '(c, a, b) => (c, era a, era b)) l) (era v)
  | OOr a b => OOr (era a) (era b) | OAnd a b => OAnd (era a) (era b) | OXor a b => OXor (era a) (era b) | ONot a => ONot (era a)
  | OSelect a b c => OSelect (era a) (era b) (era c) | OOrAnd a b c => OOrAnd (era a) (era b) (era c)
  | OBitsToIndicator _ => o | OIdxToIndicator a n => OIdxToIndicator (era a) n
  | OSelectByIndicator l i => OSelectByIndicator (map era l) i | OSelectFromIdx l i => OSelectFromIdx (map era l) (era i) | OSelectArray _ _ => o
  | OIsZero _ => o | OIsEqual a b => OIsEqual (era a) (era b) | ONumToBits _ _ | OBitsToNum _ | OPowVar _ _ _ | OLagrange _ _ => o
  | ORangeCheck _ _ => o | OCheckLessThan a b n => OCheckLessThan (era a) (era b) n | OCheckLessThanSafe _ _ | OCheckBigLessThanSafe _ _ => o
  | OIsLessThan a b n => OIsLessThan (era a) (era b) n | OIsLessThanSafe _ _ | OIsBigLessThanSafe _ _ => o
  | ODivMod a b n => ODivMod (era a) b n | ODivModVar a b n m => ODivModVar (era a) (era b) n m
  | OGetLastBit _ _ | ODecomposeLe _ _ _ | OLimbsToNum _ _ | ORightRotate _ _ _ | OLeftRotate _ _ _ => o
  end.
Definition same_shape (l1 l2 : list op) : Prop := map erase l1 = map erase l2.
End Api.
Arguments arg : clear implicits. Arguments op : clear implicits. Arguments env : clear implicits.
