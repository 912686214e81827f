(** Model of the Keccak circuit, hashes/zkevm/src/keccak/vanilla (param.rs, util.rs, table.rs, cell_manager.rs,
    keccak_packed_multi.rs, mod.rs and the fixed columns of witness.rs).
    Gates and lookups are halo2 [Expression] trees. The constants are integers (read in the field), so that the whole
    configuration, as a function of [k] and [rows_per_round], does not depend on the field. *)
From Coq Require Import ZArith List Bool.
From Verif Require Import Field.
Import ListNotations.
Local Open Scope Z_scope.

(** param.rs:14, 22-23 (k = NUM_ROUNDS + 1 rows of [ROUND_CST]), 61 *)
Definition NUM_ROUNDS : nat := 24.
Definition NUM_WORDS_TO_ABSORB : nat := 17.
Definition NUM_WORDS_TO_SQUEEZE : nat := 4.
Definition RATE : Z := 136.
(** param.rs:25-31 *)
Definition RHO_MATRIX : list (list nat) :=
  [[0; 36; 3; 41; 18]; [1; 44; 10; 45; 2]; [62; 6; 43; 15; 61]; [28; 55; 25; 21; 56]; [27; 20; 39; 8; 14]]%nat.
(** param.rs:32-58 *)
Definition ROUND_CST : list Z :=
  [0x0000000000000001; 0x0000000000008082; 0x800000000000808a; 0x8000000080008000; 0x000000000000808b; 0x0000000080000001;
   0x8000000080008081; 0x8000000000008009; 0x000000000000008a; 0x0000000000000088; 0x0000000080008009; 0x000000008000000a;
   0x000000008000808b; 0x800000000000008b; 0x8000000000008089; 0x8000000000008003; 0x8000000000008002; 0x8000000000000080;
   0x000000000000800a; 0x800000008000000a; 0x8000000080008081; 0x8000000000008080; 0x0000000080000001; 0x8000000080008008;
   0x0000000000000000].
(** param.rs:68 *)
Definition CHI_BASE_LOOKUP_TABLE : list Z := [0; 1; 1; 0; 0].

(** ** util.rs *)
(** slice [rotate_left]/[rotate_right] (they panic when [n] exceeds the length, which does not happen here) *)
Definition rotl {A} (n : nat) (l : list A) : list A := skipn n l ++ firstn n l.
Definition rotr_l {A} (n : nat) (l : list A) : list A := skipn (length l - n) l ++ firstn (length l - n) l.
(** util.rs:159-167 [target_part_sizes] *)
Definition target_part_sizes (part_size : nat) : list nat :=
  repeat part_size (64 / part_size) ++ (if Nat.eqb (64 mod part_size) 0 then [] else [64 mod part_size])%nat.
(** util.rs:170-172 [get_rotate_count] *)
Definition get_rotate_count (count part_size : nat) : nat := ((count + part_size - 1) / part_size)%nat.
(** util.rs:86-91, 94-99 [rotate], [rotate_rev] *)
Definition rotate {A} (parts : list A) (count part_size : nat) : list A := rotr_l (get_rotate_count count part_size) parts.
Definition rotate_rev {A} (parts : list A) (count part_size : nat) : list A := rotl (get_rotate_count count part_size) parts.
(** util.rs:54-75: the bits of one target part, cut before bit 0 *)
Fixpoint cut_parts (cur bits : list nat) : list (list nat) :=
  match bits with
  | [] => match cur with [] => [] | _ => [cur] end
  | b :: bs => match cur with
               | [] => cut_parts [b] bs
               | _ => if Nat.eqb b 0 then cur :: cut_parts [b] bs else cut_parts (cur ++ [b]) bs
               end
  end.
Fixpoint cut_all (sizes : list nat) (bits : list nat) : list (list nat) :=
  match sizes with [] => [] | n :: sizes => cut_parts [] (firstn n bits) ++ cut_all sizes (skipn n bits) end.
(** util.rs:61: [rot_idx], the index of the part that holds bit 0 *)
Fixpoint rot_index (parts : list (list nat)) : nat :=
  match parts with [] => 0%nat | p :: ps => if existsb (Nat.eqb 0) p then 0%nat else S (rot_index ps) end.
(** util.rs:22-82 [WordParts::new]: the bit positions of the parts *)
Definition word_parts (part_size rot : nat) (normalize : bool) : list (list nat) :=
  let bits := rotr_l rot (seq 0 64) in
  let sizes :=
    if normalize then target_part_sizes part_size
    else (repeat part_size (rot / part_size) ++ (if Nat.eqb (rot mod part_size) 0 then [] else [rot mod part_size])
       ++ repeat part_size ((64 - rot) / part_size) ++ (if Nat.eqb ((64 - rot) mod part_size) 0 then [] else [(64 - rot) mod part_size]))%nat in
  let parts := cut_all sizes bits in
  rotl (rot_index parts) parts.
(** util.rs:119-123, 147-149 [pack], [pack_u64]; 108-116 [into_bits] of one byte *)
Definition packz (bits : list Z) : Z := fold_right (fun b acc => acc * 8 + b) 0 bits.
Definition u64_bits (v : Z) : list Z := map (fun i => Z.b2z (Z.testbit v (Z.of_nat i))) (seq 0 64).
Definition byte_bits (v : Z) : list Z := map (fun i => Z.b2z (Z.testbit v (Z.of_nat i))) (seq 0 8).
Definition pack_u64 (v : Z) : Z := packz (u64_bits v).
(** util.rs:110-120 [get_absorb_positions]: the order of the words is [for j { for i { .. } }] *)
Definition absorbed (i j : nat) : bool := Nat.ltb (i + j * 5) 17.

(** ** table.rs *)
(** table.rs:13-20 [get_num_bits_per_lookup] ([num_bits] never exceeds [k], the fuel) *)
Fixpoint num_bits_loop (fuel : nat) (range k : Z) (n : nat) : nat :=
  match fuel with
  | O => n
  | S fuel => if range ^ (Z.of_nat n + 1) + 31 <=? 2 ^ k then num_bits_loop fuel range k (S n) else n
  end.
Definition get_num_bits_per_lookup (range : Z) (k : nat) : nat := num_bits_loop k range (Z.of_nat k) 1.
(** keccak_packed_multi.rs:13-27; param.rs:2-6 *)
Definition bits_absorb (k : nat) := get_num_bits_per_lookup 3 k.
Definition bits_theta (k : nat) := get_num_bits_per_lookup 6 k.
Definition bits_chi (k : nat) := get_num_bits_per_lookup 5 k.
(** the five tables; a table column is a table and a side ([false]: column 0, [true]: column 1) *)
Inductive ktab := N3 | N4 | N6 | ChiB | Pack.
(** table.rs:32-47, 96-112: [multi_cartesian_product] of [n] copies of [0..range] *)
Fixpoint digit_lists (range : nat) (n : nat) : list (list Z) :=
  match n with
  | O => [[]]
  | S n => flat_map (fun d => map (cons (Z.of_nat d)) (digit_lists range n)) (seq 0 range)
  end.
Definition digit_table (range n : nat) (f : Z -> Z) : list (Z * Z) :=
  map (fun ds => (packz ds, packz (map f ds))) (digit_lists range n).
(** table.rs:22-63, 66-87, 90-126 and mod.rs:878-891 [load_aux_tables]: the rows of the tables.
    (Rows that are not assigned repeat the first row, which is in the list.) *)
Definition table_rows (k : nat) (T : ktab) : list (Z * Z) :=
  match T with
  | N3 => digit_table 3 (get_num_bits_per_lookup 3 k) (fun d => Z.land d 1)
  | N4 => digit_table 4 (get_num_bits_per_lookup 4 k) (fun d => Z.land d 1)
  | N6 => digit_table 6 (get_num_bits_per_lookup 6 k) (fun d => Z.land d 1)
  | ChiB => digit_table 5 (bits_chi k) (fun d => nth (Z.to_nat d) CHI_BASE_LOOKUP_TABLE 0)
  | Pack => map (fun idx => (Z.of_nat idx, packz (byte_bits (Z.of_nat idx)))) (seq 0 256)
  end.

(** ** Expressions *)
(** advice columns: those of the cell manager and of [KeccakTable] (keccak_packed_multi.rs:141-151) *)
Inductive kcol := KCell (n : nat) | KFinal | KWord | KLeft | KLo | KHi.
(** mod.rs:43-60: fixed columns *)
Inductive kfix := QEn | QFirst | QRound | QAbsorb | QRoundLast | QInput | QInputLast | KRc.
Inductive kexpr := KC (c : Z) | KF (c : kfix) (rot : Z) | KA (c : kcol) (rot : Z)
  | KNeg (e : kexpr) | KSum (a b : kexpr) | KProd (a b : kexpr) | KScale (e : kexpr) (c : Z).
Fixpoint kdegree (e : kexpr) : nat :=
  match e with
  | KC _ => 0
  | KF _ _ | KA _ _ => 1
  | KNeg e | KScale e _ => kdegree e
  | KSum a b => Nat.max (kdegree a) (kdegree b)
  | KProd a b => kdegree a + kdegree b
  end.
Record ktable (p : positive) := mkKtable { krows : Z; kfixc : kfix -> Z -> F p; kadvc : kcol -> Z -> F p }.
Arguments mkKtable {p}. Arguments krows {p}. Arguments kfixc {p}. Arguments kadvc {p}.
(** a query at rotation [rot] from row [r] reads row [(r + rot) mod krows] *)
Fixpoint keval {p} (t : ktable p) (r : Z) (e : kexpr) : F p :=
  match e with
  | KC c => of_Z p c
  | KF c rot => kfixc t c ((r + rot) mod krows t)
  | KA c rot => kadvc t c ((r + rot) mod krows t)
  | KNeg e => (- keval t r e)%F
  | KSum a b => (keval t r a + keval t r b)%F
  | KProd a b => (keval t r a * keval t r b)%F
  | KScale e c => (keval t r e * of_Z p c)%F
  end.
(** [meta.lookup]: input expressions and the sides of the table they are looked up in *)
Record klookup := KLookup { lk_tab : ktab; lk_in : list (kexpr * bool) }.
Definition lookup_holds {p} (k : nat) (t : ktable p) (r : Z) (l : klookup) : Prop :=
  exists ab, In ab (table_rows k (lk_tab l)) /\
    Forall (fun es => keval t r (fst es) = of_Z p (if snd es : bool then snd ab else fst ab)) (lk_in l).
(** gates hold on every row, lookups on the usable rows *)
Definition ksat_gates {p} (t : ktable p) (g : list kexpr) : Prop :=
  forall r, 0 <= r < krows t -> Forall (fun e => keval t r e = F0) g.
Definition ksat_lookups {p} (k : nat) (usable : Z) (t : ktable p) (ls : list klookup) : Prop :=
  forall r, 0 <= r < usable -> Forall (lookup_holds k t r) ls.

(** util/expression.rs and util/constraint_builder.rs *)
Definition ksub (a b : kexpr) : kexpr := KSum a (KNeg b).
Definition ksum_list (l : list kexpr) : kexpr := fold_left KSum l (KC 0).
Definition kand (l : list kexpr) : kexpr := fold_left KProd l (KC 1).
Definition knot (b : kexpr) : kexpr := ksub (KC 1) b.
Definition kselect (s t f : kexpr) : kexpr := KSum (KProd s t) (KProd (ksub (KC 1) s) f).
Fixpoint kbytes_loop (l : list kexpr) (value : kexpr) (multiplier : Z) : kexpr :=
  match l with [] => value | x :: l => kbytes_loop l (KSum value (KScale x multiplier)) (multiplier * 256) end.
Definition kfrom_bytes (l : list kexpr) : kexpr := kbytes_loop l (KC 0) 1.
Definition kbool (v : kexpr) : kexpr := KProd v (ksub (KC 1) v).
Definition kcond (c : kexpr) (l : list kexpr) : list kexpr := map (KProd c) l.

(** ** cell_manager.rs *)
(** a cell: its column in the cell manager and its rotation (cell_manager.rs:13-19) *)
Definition kcell : Type := nat * nat.
Definition cexpr (c : kcell) : kexpr := KA (KCell (fst c)) (Z.of_nat (snd c)).
(** cell_manager.rs:45-60 [at_offset] *)
Definition cat (c : kcell) (off : Z) : kexpr := KA (KCell (fst c)) (Z.of_nat (snd c) + off).
(** cell_manager.rs:85-94; [cm_ok] turns false if the assertion of line 140 fails *)
Record cellman := CM { cm_height : nat; cm_width : nat; cm_row : nat; cm_cols : nat; cm_rows : list nat; cm_ok : bool }.
(** the state of the configuration: the cell manager, the constraints of the outer [cb] and the lookups created so far *)
Record kst := KSt { st_cm : cellman; st_cb : list kexpr; st_lk : list klookup }.
Definition KM (A : Type) : Type := kst -> A * kst.
Definition kret {A} (x : A) : KM A := fun st => (x, st).
Definition kbind {A B} (m : KM A) (f : A -> KM B) : KM B := fun st => let '(x, st) := m st in f x st.
Declare Scope km_scope.
Delimit Scope km_scope with km.
Notation "x <- m ;; f" := (kbind m (fun x => f)) (at level 61, m at next level, right associativity) : km_scope.
Notation "m ;;; f" := (kbind m (fun _ => f)) (at level 61, right associativity) : km_scope.
Local Open Scope km_scope.
Fixpoint kmapM {A B} (f : A -> KM B) (l : list A) : KM (list B) :=
  match l with [] => kret [] | x :: l => y <- f x;; ys <- kmapM f l;; kret (y :: ys) end.
Fixpoint set_nth (i v : nat) (l : list nat) : list nat :=
  match l, i with
  | [], _ => []
  | _ :: l, O => v :: l
  | x :: l, S i => x :: set_nth i v l
  end.
(** cell_manager.rs:117-156 [query_cell_at_row] and [query_cell_at_pos] *)
Definition query_cell_at_row (row : nat) : KM kcell := fun st =>
  let cm := st_cm st in
  let col := nth row (cm_rows cm) 0%nat in
  let cm' := CM (cm_height cm) (Nat.max (cm_width cm) (S col)) (S row mod cm_height cm) (Nat.max (cm_cols cm) (S col))
                (set_nth row (S col) (cm_rows cm)) (cm_ok cm && Nat.leb col (cm_cols cm)) in
  ((col, row), KSt cm' (st_cb st) (st_lk st)).
(** cell_manager.rs:112-115, 175-182 [query_cell], [get_position] *)
Definition query_cell : KM kcell := fun st => query_cell_at_row (cm_row (st_cm st)) st.
(** cell_manager.rs:188-197 [start_region] *)
Definition start_region : KM nat := fun st =>
  let cm := st_cm st in
  (cm_width cm, KSt (CM (cm_height cm) (cm_width cm) (cm_row cm) (cm_cols cm) (repeat (cm_width cm) (cm_height cm)) (cm_ok cm)) (st_cb st) (st_lk st)).
(** constraint_builder.rs: [require_equal] on the outer [cb] (no condition); and [meta.lookup] *)
Definition cb_equal (a b : kexpr) : KM unit := fun st => (tt, KSt (st_cm st) (st_cb st ++ [ksub a b]) (st_lk st)).
Definition meta_lookup (l : klookup) : KM unit := fun st => (tt, KSt (st_cm st) (st_cb st) (st_lk st ++ [l])).

(** ** keccak_packed_multi.rs *)
(** keccak_packed_multi.rs:96-101 [Part] (its expression is always the one of its cell) *)
Record kpart := KPart { pt_bits : nat; pt_cell : kcell }.
Definition pexpr (q : kpart) : kexpr := cexpr (pt_cell q).
(** keccak_packed_multi.rs:176-180 [decode::expr] *)
Definition kdecode (parts : list kpart) : kexpr :=
  fold_left (fun acc q => KSum (KScale acc (8 ^ Z.of_nat (pt_bits q))) (pexpr q)) (rev parts) (KC 0).
(** keccak_packed_multi.rs:201-227 [split::expr] ([normalize] = false, [row] = None at every call) *)
Definition ksplit (input : kexpr) (rot target_part_size : nat) : KM (list kpart) :=
  parts <- kmapM (fun w : list nat => c <- query_cell;; kret (KPart (length w) c)) (word_parts target_part_size rot false);;
  cb_equal (kdecode parts) input;;;
  kret parts.
(** keccak_packed_multi.rs:276-341: the loop of [split_uniform::expr] *)
Fixpoint uniform_loop (words : list (list nat)) (targets : list (nat * kcell)) : KM (list kpart * list kpart) :=
  match targets with
  | [] => kret ([], [])
  | (size, out) :: targets =>
      match words with
      | [] => kret ([], [])
      | w :: words =>
          if Nat.eqb (length w) size then
            r <- uniform_loop words targets;;
            kret (KPart size out :: fst r, KPart size out :: snd r)
          else
            match words with
            | [] => kret ([], [])  (* unreachable!() *)
            | extra :: words =>
                a <- query_cell;; b <- query_cell;;
                cb_equal (KSum (cexpr a) (KScale (cexpr b) (8 ^ Z.of_nat (length w)))) (cexpr out);;;
                r <- uniform_loop words targets;;
                kret (KPart (length w) a :: KPart (length extra) b :: fst r, KPart size out :: snd r)
            end
      end
  end.
(** keccak_packed_multi.rs:273-347 [split_uniform::expr] ([normalize] = true) *)
Definition ksplit_uniform (outs : list kcell) (input : kexpr) (rot target_part_size : nat) : KM (list kpart) :=
  let words := rotate (word_parts target_part_size rot true) rot target_part_size in
  r <- uniform_loop words (combine (target_part_sizes target_part_size) outs);;
  cb_equal (kdecode (rotate_rev (fst r) rot target_part_size)) input;;;
  kret (snd r).
(** keccak_packed_multi.rs:496-524 [transform_to::expr] with [uniform_lookup] = true. [rev_sides]: the pack table is passed with its
    columns reversed (mod.rs:192, 450) *)
Fixpoint transform_to (T : ktab) (rev_sides : bool) (input : list kpart) (cells : list kcell) : KM (list kpart) :=
  match input, cells with
  | q :: input, c :: cells =>
      (if Nat.eqb (snd (pt_cell q)) 0 then meta_lookup (KLookup T [(pexpr q, rev_sides); (cexpr c, negb rev_sides)]) else kret tt);;;
      r <- transform_to T rev_sides input cells;;
      kret (KPart (pt_bits q) c :: r)
  | _, _ => kret []
  end.
(** keccak_packed_multi.rs:440-470 [transform::expr] with [uniform_lookup] = true *)
Definition ktransform (T : ktab) (rev_sides : bool) (input : list kpart) : KM (list kpart) :=
  cells <- kmapM (fun q => query_cell_at_row (snd (pt_cell q))) input;;
  transform_to T rev_sides input cells.

(** ** mod.rs *)
(** the cells that the gates refer to *)
Record kconf := KConf {
  kc_k : nat; kc_r : nat;
  kc_s : list (list kcell);                (* mod.rs:119-125 *)
  kc_from : kcell; kc_data : kcell; kc_result : kcell;  (* 127-129 *)
  kc_absorb_fat : list kpart; kc_absorb_res : list kpart; (* 151-165 *)
  kc_packed : list kpart; kc_input : list kpart;        (* 180-194 *)
  kc_pads : list kcell;                                  (* 199 *)
  kc_c : list (list kpart); kc_bc : list (list kpart);  (* 215-245 *)
  kc_cells : list (list (list (list kcell)));           (* 289-312: [p][i][j] *)
  kc_rho : list (list (list kpart)); kc_norm : list (list (list kpart)); (* 315-338, in the order [j][i] of the loops *)
  kc_pi_start : nat; kc_pi_end : nat; kc_chi_starts : list nat; kc_chi_cols : nat;
  kc_iota : list kpart; kc_iota_out : list kpart;       (* 402-420 *)
  kc_sq_from : kcell; kc_sq_parts : list kpart; kc_sq_bytes : list kpart; (* 434-453 *)
  kc_round : list kexpr; kc_lookups : list klookup; kc_ok : bool }.

Definition nth2 {A} (d : A) (l : list (list A)) (i j : nat) : A := nth j (nth i l []) d.
(** mod.rs:300-312: one of the three 5 x 5 arrays of cells; [grid] lists, in the order of the loops [for j { for _ { for i } } }], the cells *)
Definition grid_cells (nw rr : nat) : KM (list (list (list kcell))) :=
  kmapM (fun j => kmapM (fun w => kmapM (fun _ => query_cell_at_row ((j * nw + w) mod rr)) (seq 0 5)) (seq 0 nw)) (seq 0 5).
(** the vector of the cells of word (i, j) in such an array *)
Definition grid_word (g : list (list (list kcell))) (i j : nat) : list kcell := map (fun row => nth i row (0, 0)%nat) (nth j g []).
(** mod.rs:244-259 theta: [os[i][j]] *)
Definition theta_t (bc : list (list kpart)) (part_size i : nat) : kexpr :=
  KSum (kdecode (nth ((i + 4) mod 5) bc [])) (kdecode (rotate (nth ((i + 1) mod 5) bc []) 1 part_size)).
(** mod.rs:96-453 and 460: everything built with the cell manager and the outer [cb] *)
Definition kec_build (k rr : nat) : KM kconf :=
  (* 119-125 *)
  s <- kmapM (fun _ => kmapM (fun _ => query_cell) (seq 0 5)) (seq 0 5);;
  (* 127-129 *)
  a_from <- query_cell;; a_data <- query_cell;; a_result <- query_cell;;
  (* 150-169 *)
  start_region;;;
  fat <- ksplit (KSum (cexpr a_from) (cexpr a_data)) 0 (bits_absorb k);;
  start_region;;;
  res <- ktransform N3 false fat;;
  cb_equal (kdecode res) (cexpr a_result);;;
  (* 178-195 *)
  start_region;;;
  packed <- ksplit (cexpr a_data) 0 8;;
  start_region;;;
  input <- ktransform Pack true packed;;
  (* 198-199 *)
  start_region;;;
  pads <- kmapM (fun _ => query_cell) (seq 0 8);;
  (* 212-245 *)
  start_region;;;
  let pc := bits_theta k in
  cparts <- kmapM (fun row : list kcell =>
              match map cexpr row with
              | [s0; s1; s2; s3; s4] => ksplit (KSum (KSum (KSum (KSum s0 s1) s2) s3) s4) 1 pc
              | _ => kret []
              end) s;;
  start_region;;;
  bc <- kmapM (ktransform N6 false) cparts;;
  let s1 i j := KSum (cexpr (nth2 (0, 0)%nat s i j)) (theta_t bc pc i) in
  (* 274-312 *)
  start_region;;;
  let ps := bits_chi k in
  let nw := length (target_part_sizes ps) in
  start0 <- start_region;; g0 <- grid_cells nw rr;;
  start1 <- start_region;; g1 <- grid_cells nw rr;;
  start2 <- start_region;; g2 <- grid_cells nw rr;;
  (* 314-339 *)
  pi_start <- start_region;;
  rn <- kmapM (fun j => kmapM (fun i =>
          let i' := j in let j' := ((2 * i + 3 * j) mod 5)%nat in
          parts <- ksplit_uniform (grid_word g0 i' j') (s1 i j) (nth2 0%nat RHO_MATRIX i j) ps;;
          norm <- transform_to N4 false parts (grid_word g1 i' j');;
          kret (parts, norm)) (seq 0 5)) (seq 0 5);;
  pi_end <- start_region;;
  (* 345-350 *)
  kmapM (fun c => meta_lookup (KLookup N4 [(KA (KCell c) 0, false)])) (seq pi_start (pi_end - pi_start));;;
  (* 361-386; [num_columns] counts the visits of row 0 *)
  let ncols := length (filter (fun x => Nat.eqb (x mod rr) 0) (seq 0 (5 * nw))) in
  let scatter3 := KC (packz (repeat 3 ps)) in
  kmapM (fun idx => kmapM (fun i =>
     let inp c := KA (KCell (start1 + idx * 5 + c)) 0 in
     let e := ksub (KSum (ksub scatter3 (KProd (KC 2) (inp i))) (inp ((i + 1) mod 5)%nat)) (inp ((i + 2) mod 5)%nat) in
     meta_lookup (KLookup ChiB [(e, false); (KA (KCell (start2 + idx * 5 + i)) 0, true)])) (seq 0 5)) (seq 0 ncols);;;
  (* 387-402 *)
  let chi i j := kdecode (map (KPart ps) (grid_word g2 i j)) in
  (* 404-424 *)
  start_region;;;
  iota <- ksplit (KSum (chi 0%nat 0%nat) (KF KRc 0)) 0 (bits_absorb k);;
  start_region;;;
  iota_out <- ktransform N3 false iota;;
  (* 426-430 *)
  kmapM (fun i => kmapM (fun j =>
     cb_equal (if Nat.eqb i 0 && Nat.eqb j 0 then kdecode iota_out else chi i j)
              (cat (nth2 (0, 0)%nat s i j) (Z.of_nat rr))) (seq 0 5)) (seq 0 5);;;
  (* 436-468 *)
  start_region;;;
  sq_from <- query_cell;;
  start_region;;;
  sq_parts <- ksplit (cexpr sq_from) 0 8;;
  start_region;;;
  sq_bytes <- ktransform Pack true sq_parts;;
  fun st => (KConf k rr s a_from a_data a_result fat res packed input pads cparts bc [map (fun i => map (grid_word g0 i) (seq 0 5)) (seq 0 5);
               map (fun i => map (grid_word g1 i) (seq 0 5)) (seq 0 5); map (fun i => map (grid_word g2 i) (seq 0 5)) (seq 0 5)]
               (map (map fst) rn) (map (map snd) rn) pi_start pi_end [start0; start1; start2] ncols iota iota_out sq_from sq_parts sq_bytes
               (st_cb st) (st_lk st) (cm_ok (st_cm st)), st).
Definition kec_conf (k rr : nat) : kconf :=
  fst (kec_build k rr (KSt (CM rr 0 0 0 (repeat 0%nat rr) true) [] [])).

Section Gates.
Variable cf : kconf.
Notation R := (Z.of_nat (kc_r cf)).
Definition sx (i j : nat) : kexpr := cexpr (nth2 (0, 0)%nat (kc_s cf) i j).
Definition sx_next (i j : nat) : kexpr := cat (nth2 (0, 0)%nat (kc_s cf) i j) R.
Definition q (c : kfix) : kexpr := KF c 0.
(** mod.rs:102-105 *)
Definition start_new_hash : kexpr := KSum (KF QFirst 0) (KA KFinal 0).
Definition continue_hash : kexpr := knot start_new_hash.
(** mod.rs:471-516; [a_slice] of word (i, j) is [i + 5 j] *)
Definition absorb_gate : list kexpr :=
  kcond (q QAbsorb) (flat_map (fun j => flat_map (fun i =>
    if absorbed i j then
      let rot := Z.of_nat (i + 5 * j + 1) * R in
      [KProd continue_hash (ksub (cat (kc_from cf) rot) (sx i j));
       ksub (kselect continue_hash (cat (kc_result cf) rot) (cat (kc_data cf) rot)) (sx_next i j)]
    else [ksub (KProd (sx i j) continue_hash) (sx_next i j)]) (seq 0 5)) (seq 0 5)).
(** mod.rs:518-525 *)
Definition hash_bytes : list kexpr :=
  flat_map (fun i => map (fun b => cat (pt_cell b) (- (Z.of_nat i + 1) * R)) (kc_sq_bytes cf)) (seq 0 4).
(** mod.rs:527-556; util/word.rs: [Word32::to_word] is [from_bytes] of the two halves *)
Definition squeeze_gate : list kexpr :=
  kcond (q QRoundLast)
    (map (fun idx => KProd start_new_hash (ksub (sx idx 0) (cat (kc_sq_from cf) (- (Z.of_nat idx + 1) * R)))) (seq 0 4)
     ++ [KProd start_new_hash (ksub (kfrom_bytes (firstn 16 (rev hash_bytes))) (KA KLo 0));
         KProd start_new_hash (ksub (kfrom_bytes (skipn 16 (rev hash_bytes))) (KA KHi 0))]).
(** mod.rs:559-563, 566-573 *)
Definition input_check_gate : list kexpr := kcond (q QEn) [kbool (KA KFinal 0)].
Definition first_row_gate : list kexpr := kcond (q QFirst) [KA KFinal 0].
(** mod.rs:608-625 *)
Definition word_gate : list kexpr :=
  kcond (q QInput) [ksub (kfrom_bytes (map (fun bp : kpart * kcell => KProd (pexpr (fst bp)) (knot (cexpr (snd bp)))) (combine (kc_input cf) (kc_pads cf))))
                         (KA KWord 0)].
(** mod.rs:626-679 *)
Definition left_gate : list kexpr :=
  kcond (q QEn)
    [KProd (q QFirst) (KA KLeft 0);
     KProd (KA KFinal 0) (KA KLeft 0);
     KProd (q QInput) (ksub (KA KLeft 0) (KSum (KA KLeft R) (ksub (KC 8) (ksum_list (map cexpr (kc_pads cf))))));
     KProd (knot (KSum (q QInput) start_new_hash)) (ksub (KA KLeft 0) (KA KLeft R))].
Definition pad_cell (i : nat) : kcell := nth i (kc_pads cf) (0, 0)%nat.
(** mod.rs:682-715 *)
Definition final_gate : list kexpr :=
  kcond (KC 1)
    [KProd (ksub (KF QAbsorb 0) (KF QFirst 0)) (ksub (KA KFinal 0) (cat (pad_cell 7) (- (8 * R))));
     KProd (fold_left KSum (map (fun i => KF QEn (- Z.of_nat i)) (seq 1 (kc_r cf - 1))) (KC 0)) (KA KFinal 0)].
(** mod.rs:717-798 *)
Definition pad_prev (i : nat) : kexpr := match i with O => cat (pad_cell 7) (- R) | S i => cexpr (pad_cell i) end.
Definition input_byte (i : nat) : kexpr := pexpr (nth i (kc_input cf) (KPart 0 (0, 0)%nat)).
Definition pad_first (i : nat) : kexpr := ksub (cexpr (pad_cell i)) (pad_prev i).
Definition padding_gate : list kexpr :=
  kcond (KC 1)
   (map (fun i => KProd (q QEn) (kbool (cexpr (pad_cell i)))) (seq 0 8)
    ++ [KProd (q QAbsorb) (cexpr (pad_cell 7))]
    ++ flat_map (fun i =>
         [KProd (q QInput) (kbool (pad_first i))] ++
         (if Nat.eqb i 7 then
            [KProd (kand [ksub (q QInput) (q QInputLast); cexpr (pad_cell i)]) (ksub (input_byte i) (pad_first i));
             KProd (kand [q QInputLast; cexpr (pad_cell i)]) (ksub (input_byte i) (KSum (pad_first i) (KC 128)))]
          else [KProd (kand [q QInput; cexpr (pad_cell i)]) (ksub (input_byte i) (pad_first i))])) (seq 0 8)).
(** mod.rs:462-463 and the gates above, in order *)
Definition kec_gates : list kexpr :=
  kcond (q QRound) (kc_round cf) ++ absorb_gate ++ squeeze_gate ++ input_check_gate ++ first_row_gate ++ word_gate ++ left_gate
  ++ final_gate ++ padding_gate.
End Gates.
(** The assertion of [validate_degree] ([MAX_DEGREE] = 3) on every constraint *)
Definition kec_config (k rr : nat) : option (list kexpr * list klookup) :=
  let cf := kec_conf k rr in
  if kc_ok cf && forallb (fun e => Nat.leb (kdegree e) 3) (kec_gates cf) then Some (kec_gates cf, kc_lookups cf) else None.

(** ** Fixed columns *)
Definition kb2z (b : bool) : Z := if b then 1 else 0.
(** keccak_packed_multi.rs:76-93 [dummy_rows] for the first [rr] rows, then witness.rs:360-372 for blocks of 25 rounds of [rr] rows *)
Definition kfixed_value (rr : Z) (c : kfix) (offset : Z) : Z :=
  let idx := offset mod rr in let rnd := offset / rr in let round := (rnd - 1) mod 25 in
  let dummy := rnd =? 0 in
  match c with
  | QEn => kb2z (idx =? 0)
  | QFirst => kb2z (offset =? 0)
  | QRound => kb2z (negb dummy && (idx =? 0) && (round <? 24))
  | QAbsorb => kb2z ((idx =? 0) && (dummy || (round =? 24)))
  | QRoundLast => kb2z (negb dummy && (idx =? 0) && (round =? 24))
  | QInput => kb2z (negb dummy && (idx =? 0) && (round <? 17))
  | QInputLast => kb2z (negb dummy && (idx =? 0) && (round =? 16))
  | KRc => if dummy then 0 else pack_u64 (nth (Z.to_nat round) ROUND_CST 0)
  end.
(** mod.rs:815-862 [assign]: the fixed columns when [nb] blocks are assigned from row 0; halo2 leaves zero elsewhere *)
Definition kfixed_assigned {p} (rr : Z) (t : ktable p) (nb : Z) : Prop :=
  forall c r, 0 <= r < krows t -> kfixc t c r = of_Z p (if r <? rr * (1 + 25 * nb) then kfixed_value rr c r else 0).
(** component/circuit/shard.rs:490-528 [transmute_keccak_assigned_to_virtual]: the cells of block [b] *)
Record kloaded (p : positive) := KLoaded { ld_left : F p; ld_words : list (F p); ld_final : F p; ld_lo : F p; ld_hi : F p }.
Arguments KLoaded {p}. Arguments ld_left {p}. Arguments ld_words {p}. Arguments ld_final {p}. Arguments ld_lo {p}. Arguments ld_hi {p}.
Definition kloaded_block {p} (rr : Z) (t : ktable p) (b : Z) : kloaded p :=
  let row i := rr * (1 + 25 * b + i) in
  KLoaded (kadvc t KLeft (row 0)) (map (fun i => kadvc t KWord (row (Z.of_nat i))) (seq 0 17))
          (kadvc t KFinal (row 24)) (kadvc t KLo (row 24)) (kadvc t KHi (row 24)).
