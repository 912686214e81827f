(** When some lookups of the Keccak circuit are missing: for the parameters where [kec_attackable] holds, the circuit accepts
    any message with the digest zero. *)
From Coq Require Import ZArith List Bool Lia.
From Verif Require Import Field KecCircuit.
Import ListNotations.
Local Open Scope Z_scope.

(** ** Tables over the integers *)
Section EvZ.
Variable rows : Z.
Variable fx : kfix -> Z -> Z.
Variable ad : kcol -> Z -> Z.
Fixpoint evz (r : Z) (e : kexpr) : Z :=
  match e with
  | KC c => c
  | KF c rot => fx c ((r + rot) mod rows)
  | KA c rot => ad c ((r + rot) mod rows)
  | KNeg e => - evz r e
  | KSum a b => evz r a + evz r b
  | KProd a b => evz r a * evz r b
  | KScale e c => evz r e * c
  end.
Definition ztable (p : positive) : ktable p := mkKtable rows (fun c r => of_Z p (fx c r)) (fun c r => of_Z p (ad c r)).
Lemma keval_evz p r e : keval (ztable p) r e = of_Z p (evz r e).
Proof.
  induction e; cbn [keval evz ztable krows kfixc kadvc]; try reflexivity.
  - rewrite IHe. symmetry; apply of_Z_opp.
  - rewrite IHe1, IHe2. symmetry; apply of_Z_add.
  - rewrite IHe1, IHe2. symmetry; apply of_Z_mul.
  - rewrite IHe. symmetry; apply of_Z_mul.
Qed.
End EvZ.

(** ** Constant columns *)
Section Aval.
Variable nz : list nat.  (* the columns of the cell manager that are not zero *)
Definition azero (c : kcol) : bool :=
  match c with KCell n => negb (existsb (Nat.eqb n) nz) | KLo | KHi => true | _ => false end.
Definition is0 (o : option Z) : bool := match o with Some z => Z.eqb z 0 | None => false end.
Fixpoint aval (e : kexpr) : option Z :=
  match e with
  | KC c => Some c
  | KF _ _ => None
  | KA c _ => if azero c then Some 0 else None
  | KNeg e => match aval e with Some a => Some (- a) | None => None end
  | KSum a b => match aval a, aval b with Some a, Some b => Some (a + b) | _, _ => None end
  | KProd a b => let a := aval a in let b := aval b in
                 if is0 a || is0 b then Some 0 else match a, b with Some a, Some b => Some (a * b) | _, _ => None end
  | KScale e c => match aval e with Some a => Some (a * c) | None => None end
  end.
Variable rows : Z.
Variable fx : kfix -> Z -> Z.
Variable ad : kcol -> Z -> Z.
Hypothesis Had : forall c r, azero c = true -> ad c r = 0.
Lemma is0_spec o : is0 o = true -> o = Some 0.
Proof. destruct o; cbn; [|discriminate]. intros H. apply Z.eqb_eq in H. now subst. Qed.
Lemma aval_spec r e z : aval e = Some z -> evz rows fx ad r e = z.
Proof.
  revert z; induction e; intros z; cbn [aval evz]; intros H.
  - now injection H.
  - discriminate.
  - destruct (azero c) eqn:E; [|discriminate]. injection H as <-. now apply Had.
  - destruct (aval e); [|discriminate]. injection H as <-. now rewrite (IHe _ eq_refl).
  - destruct (aval e1); [|discriminate]. destruct (aval e2); [|discriminate]. injection H as <-.
    now rewrite (IHe1 _ eq_refl), (IHe2 _ eq_refl).
  - destruct (is0 (aval e1) || is0 (aval e2)) eqn:E.
    + injection H as <-. apply orb_true_iff in E as [E|E]; apply is0_spec in E.
      * rewrite (IHe1 _ E). lia.
      * rewrite (IHe2 _ E). lia.
    + destruct (aval e1); [|discriminate]. destruct (aval e2); [|discriminate]. injection H as <-.
      now rewrite (IHe1 _ eq_refl), (IHe2 _ eq_refl).
  - destruct (aval e); [|discriminate]. injection H as <-. now rewrite (IHe _ eq_refl).
Qed.
End Aval.

(** ** The parameters under attack *)
Definition kfix_eqb (a b : kfix) : bool :=
  match a, b with
  | QEn, QEn | QFirst, QFirst | QRound, QRound | QAbsorb, QAbsorb | QRoundLast, QRoundLast | QInput, QInput | QInputLast, QInputLast | KRc, KRc => true
  | _, _ => false
  end.
Definition kcol_eqb (a b : kcol) : bool :=
  match a, b with KCell m, KCell n => Nat.eqb m n | KFinal, KFinal | KWord, KWord | KLeft, KLeft | KLo, KLo | KHi, KHi => true | _, _ => false end.
Fixpoint kexpr_eqb (a b : kexpr) : bool :=
  match a, b with
  | KC c, KC d => Z.eqb c d
  | KF c r, KF d s => kfix_eqb c d && Z.eqb r s
  | KA c r, KA d s => kcol_eqb c d && Z.eqb r s
  | KNeg a, KNeg b => kexpr_eqb a b
  | KSum a b, KSum c d | KProd a b, KProd c d => kexpr_eqb a c && kexpr_eqb b d
  | KScale a c, KScale b d => kexpr_eqb a b && Z.eqb c d
  | _, _ => false
  end.
Lemma kfix_eqb_eq a b : kfix_eqb a b = true -> a = b.
Proof. destruct a, b; cbn; congruence. Qed.
Lemma kcol_eqb_eq a b : kcol_eqb a b = true -> a = b.
Proof. destruct a, b; cbn; try congruence. intros H; apply Nat.eqb_eq in H; now subst. Qed.
Lemma kexpr_eqb_eq a : forall b, kexpr_eqb a b = true -> a = b.
Proof.
  induction a; intros b; destruct b; cbn [kexpr_eqb]; try discriminate; intros H; try (apply andb_true_iff in H as [H H']).
  - apply Z.eqb_eq in H; now subst.
  - apply kfix_eqb_eq in H. apply Z.eqb_eq in H'. now subst.
  - apply kcol_eqb_eq in H. apply Z.eqb_eq in H'. now subst.
  - f_equal. now apply IHa.
  - f_equal; [now apply IHa1 | now apply IHa2].
  - f_equal; [now apply IHa1 | now apply IHa2].
  - apply Z.eqb_eq in H'. f_equal; [now apply IHa | assumption].
Qed.

Definition cell_eqb (a b : kcell) : bool := Nat.eqb (fst a) (fst b) && Nat.eqb (snd a) (snd b).
Lemma cell_eqb_eq a b : cell_eqb a b = true <-> a = b.
Proof.
  destruct a as [a1 a2], b as [b1 b2]. unfold cell_eqb; cbn [fst snd]. rewrite andb_true_iff, !Nat.eqb_eq.
  split; [intros [-> ->]; reflexivity | intros H; injection H as -> ->; auto].
Qed.
Fixpoint nodup_cells (l : list kcell) : bool :=
  match l with [] => true | c :: l => negb (existsb (cell_eqb c) l) && nodup_cells l end.
Lemma nodup_cells_spec l : nodup_cells l = true -> NoDup l.
Proof.
  induction l as [|c l IH]; cbn [nodup_cells]; [constructor|].
  rewrite andb_true_iff, negb_true_iff. intros [H1 H2]. constructor; [|auto].
  intros Hin. assert (existsb (cell_eqb c) l = true) as E; [|congruence].
  apply existsb_exists. exists c. split; [assumption | now apply cell_eqb_eq].
Qed.

Definition special_cells (cf : kconf) : list kcell :=
  map pt_cell (kc_input cf) ++ kc_pads cf ++ map pt_cell (firstn 1 (kc_iota cf)).
Definition iota_constraint (cf : kconf) : kexpr :=
  ksub (kdecode (kc_iota cf)) (KSum (kdecode (map (KPart (bits_chi (kc_k cf))) (nth2 [] (nth 2 (kc_cells cf) []) 0 0))) (KF KRc 0)).
Definition table_point (k : nat) (T : ktab) : Z * Z :=
  match T with ChiB => (packz (repeat 3 (bits_chi k)), 0) | _ => (0, 0) end.
(** Every constraint of the rounds but the one that splits the input of iota, and every constraint on absorbed and squeezed words, holds
    as soon as all the columns other than those of the input bytes, of the padding flags and of the input of iota are zero; so does every
    lookup. *)
Definition conf_attackable (k : nat) (cf : kconf) : bool :=
  let rr := kc_r cf in
  let nz := map fst (special_cells cf) in
  let zero e := is0 (aval nz e) in
  kc_ok cf
  && nodup_cells (special_cells cf ++ map pt_cell (skipn 1 (kc_iota cf)))
  && forallb (fun c : kcell => Nat.ltb (snd c) rr) (special_cells cf ++ map pt_cell (kc_iota cf))
  && Nat.eqb (length (kc_input cf)) 8 && Nat.eqb (length (kc_pads cf)) 8 && negb (Nat.eqb (length (kc_iota cf)) 0)
  && zero (kdecode (map (KPart (bits_chi (kc_k cf))) (nth2 [] (nth 2 (kc_cells cf) []) 0 0)))
  && forallb (fun e => zero e || kexpr_eqb e (iota_constraint cf)) (kc_round cf)
  && forallb (fun e => zero e) (absorb_gate cf) && forallb (fun e => zero e) (squeeze_gate cf)
  && forallb (fun l => forallb (fun es : kexpr * bool =>
       match aval nz (fst es) with
       | Some z => Z.eqb z (if snd es then snd (table_point k (lk_tab l)) else fst (table_point k (lk_tab l)))
       | None => false
       end) (lk_in l)) (kc_lookups cf).

(** ** Blocks of padded messages *)
(** a block of 136 bytes whose last [bk_npad] bytes are padding; [bk_left] is the number of message bytes not before it *)
Record blk := Blk { bk_byte : Z -> Z; bk_npad : Z; bk_left : Z }.
Definition bk_final (b : blk) : bool := 0 <? bk_npad b.
(** is byte [i] of the block a padding byte? *)
Definition bk_pad (b : blk) (i : Z) : Z := kb2z (136 - bk_npad b <=? i).
Definition bk_ok (b : blk) : Prop :=
  0 <= bk_npad b <= 136 /\
  (forall i, 136 - bk_npad b <= i < 136 ->
     bk_byte b i = kb2z (i =? 136 - bk_npad b) + (if i =? 135 then 128 else 0)) /\
  (bk_final b = true -> bk_left b = 136 - bk_npad b).
Fixpoint blks_ok (l : list blk) : Prop :=
  match l with
  | [] => True
  | b :: l => bk_ok b /\
              match l with [] => bk_final b = true | c :: _ => bk_final b = false -> bk_left c = bk_left b - 136 end /\
              blks_ok l
  end.
Definition dblk : blk := Blk (fun _ => 0) 0 0.
Lemma blks_ok_nth l : blks_ok l -> forall i, (i < length l)%nat ->
  bk_ok (nth i l dblk) /\
  (bk_final (nth i l dblk) = false -> (S i < length l)%nat /\ bk_left (nth (S i) l dblk) = bk_left (nth i l dblk) - 136).
Proof.
  induction l as [|b l IH]; cbn [blks_ok length]; [lia|]. intros (Hb & Hc & Hl) i Hi.
  destruct i as [|i].
  - split; [exact Hb|]. cbn [nth]. intros E. destruct l as [|c l]; [congruence|]. cbn [nth length]. split; [lia | auto].
  - destruct (IH Hl i ltac:(lia)) as [H1 H2]. split; [exact H1|]. intros E. destruct (H2 E) as [H3 H4]. split; [lia | exact H4].
Qed.

Fixpoint index_of (c : kcell) (l : list kcell) : option nat :=
  match l with [] => None | d :: l => if cell_eqb c d then Some O else option_map S (index_of c l) end.
Lemma index_of_nth l c i : NoDup l -> nth_error l i = Some c -> index_of c l = Some i.
Proof.
  revert i; induction l as [|d l IH]; intros i Hd Hi; [destruct i; discriminate|]. inversion Hd; subst. cbn [index_of].
  destruct (cell_eqb c d) eqn:E.
  - apply cell_eqb_eq in E. subst. destruct i; [reflexivity|]. cbn in Hi. apply nth_error_In in Hi. contradiction.
  - destruct i; cbn in Hi.
    + injection Hi as ->. assert (cell_eqb c c = true) by now apply cell_eqb_eq. congruence.
    + now rewrite (IH _ H2 Hi).
Qed.
Lemma index_of_none l c : ~ In c l -> index_of c l = None.
Proof.
  induction l as [|d l IH]; cbn [index_of In]; intros H; [reflexivity|].
  destruct (cell_eqb c d) eqn:E; [apply cell_eqb_eq in E; subst; tauto|]. rewrite IH by tauto. reflexivity.
Qed.
Lemma index_of_in l c i : index_of c l = Some i -> In c l.
Proof.
  revert i; induction l as [|d l IH]; intros i; cbn [index_of In]; [discriminate|].
  destruct (cell_eqb c d) eqn:E; [apply cell_eqb_eq in E; auto|]. destruct (index_of c l); [|discriminate]. right; now apply (IH n).
Qed.
Definition kec_attackable (k rr : nat) : bool := Nat.eqb (kc_r (kec_conf k rr)) rr && conf_attackable k (kec_conf k rr).

Lemma list8 (a0 a1 a2 a3 a4 a5 a6 a7 b0 b1 b2 b3 b4 b5 b6 b7 : Z) : [a0; a1; a2; a3; a4; a5; a6; a7] = [b0; b1; b2; b3; b4; b5; b6; b7] ->
  a0 = b0 /\ a1 = b1 /\ a2 = b2 /\ a3 = b3 /\ a4 = b4 /\ a5 = b5 /\ a6 = b6 /\ a7 = b7.
Proof. intros H. injection H. auto 10. Qed.
Lemma opt_match o w : match o with Some z => Z.eqb z w | None => false end = true -> o = Some w.
Proof. destruct o; [|discriminate]. intros H. apply Z.eqb_eq in H. now subst. Qed.
(** ** The table of the attack *)
Local Opaque kec_conf kec_build bits_chi pack_u64 ROUND_CST Z.pow packz.
Section Attack.
Variables (k : nat) (cf : kconf).
Notation rr := (kc_r cf).
Notation R := (Z.of_nat rr).
Variable blks : list blk.
Variable rows : Z.
Notation nb := (Z.of_nat (length blks)).
Definition the_blk (b : Z) : blk := nth (Z.to_nat b) blks dblk.
(** the value of cell [c] in round [t] of block [b] *)
Definition posval (c : kcell) (b t : Z) : Z :=
  match index_of c (special_cells cf) with
  | Some i =>
      if (i <? 8)%nat then (if t <? 17 then bk_byte (the_blk b) (8 * t + Z.of_nat i) else 0)
      else if (i <? 16)%nat then (if t <? 17 then bk_pad (the_blk b) (8 * t + (Z.of_nat i - 8)) else 0)
      else pack_u64 (nth (Z.to_nat t) ROUND_CST 0)
  | None => 0
  end.
Definition atk_word (b t : Z) : Z :=
  fold_right Z.add 0 (map (fun i => bk_byte (the_blk b) (8 * t + Z.of_nat i) * (1 - bk_pad (the_blk b) (8 * t + Z.of_nat i)) * 256 ^ Z.of_nat i) (seq 0 8)).
Definition atk_left (b t : Z) : Z := bk_left (the_blk b) - Z.min (8 * t) (136 - bk_npad (the_blk b)).
Definition atk (c : kcol) (r : Z) : Z :=
  let g := r / R - 1 in
  if (0 <=? g) && (g <? 25 * nb) then
    let b := g / 25 in let t := g mod 25 in
    match c with
    | KCell n => posval (n, Z.to_nat (r mod R)) b t
    | KFinal => if (r mod R =? 0) && (t =? 24) then kb2z (bk_final (the_blk b)) else 0
    | KWord => if t <? 17 then atk_word b t else 0
    | KLeft => atk_left b t
    | KLo | KHi => 0
    end
  else 0.
Definition atk_fx (c : kfix) (r : Z) : Z := if r <? R * (1 + 25 * nb) then kfixed_value R c r else 0.
Hypothesis Hatk : conf_attackable k cf = true.
Hypothesis Hok : blks_ok blks.
Hypothesis Hfit : R * (1 + 25 * nb) <= rows.
Notation nz := (map fst (special_cells cf)).
Notation ev := (evz rows atk_fx atk).

Lemma atk_parts :
  NoDup (special_cells cf ++ map pt_cell (skipn 1 (kc_iota cf))) /\
  Forall (fun c : kcell => (snd c < rr)%nat) (special_cells cf ++ map pt_cell (kc_iota cf)) /\
  length (kc_input cf) = 8%nat /\ length (kc_pads cf) = 8%nat /\ length (kc_iota cf) <> 0%nat /\
  aval nz (kdecode (map (KPart (bits_chi (kc_k cf))) (nth2 [] (nth 2 (kc_cells cf) []) 0 0))) = Some 0 /\
  Forall (fun e => aval nz e = Some 0 \/ e = iota_constraint cf) (kc_round cf) /\
  Forall (fun e => aval nz e = Some 0) (absorb_gate cf) /\ Forall (fun e => aval nz e = Some 0) (squeeze_gate cf) /\
  Forall (fun l => Forall (fun es : kexpr * bool =>
       aval nz (fst es) = Some (if snd es then snd (table_point k (lk_tab l)) else fst (table_point k (lk_tab l)))) (lk_in l)) (kc_lookups cf).
Proof.
  unfold conf_attackable in Hatk. cbv zeta in Hatk. rewrite !andb_true_iff in Hatk.
  destruct Hatk as ((((((((((H1 & H2) & H3) & H4) & H5) & H6) & H7) & H8) & H9) & H10) & H11).
  repeat split.
  - now apply nodup_cells_spec.
  - apply Forall_forall. intros c Hc. rewrite forallb_forall in H3. now apply Nat.ltb_lt, H3.
  - now apply Nat.eqb_eq.
  - now apply Nat.eqb_eq.
  - apply negb_true_iff in H6. now apply Nat.eqb_neq.
  - now apply is0_spec.
  - apply Forall_forall. intros e He. rewrite forallb_forall in H8. specialize (H8 e He). apply orb_true_iff in H8 as [H8|H8].
    + left; now apply is0_spec.
    + right; now apply kexpr_eqb_eq.
  - apply Forall_forall. intros e He. rewrite forallb_forall in H9. now apply is0_spec, H9.
  - apply Forall_forall. intros e He. rewrite forallb_forall in H10. now apply is0_spec, H10.
  - apply Forall_forall. intros l Hl. rewrite forallb_forall in H11. specialize (H11 l Hl).
    apply Forall_forall. intros es Hes. rewrite forallb_forall in H11. specialize (H11 es Hes). cbv beta in H11.
    exact (opt_match _ _ H11).
Qed.
Lemma R_pos : 0 < R.
Proof.
  destruct atk_parts as (_ & H & H8 & _). unfold special_cells in H. destruct (kc_input cf) as [|x l]; [discriminate|].
  cbn in H. inversion H; subst. lia.
Qed.
Lemma atk_zero c r : azero nz c = true -> atk c r = 0.
Proof.
  unfold atk. destruct ((0 <=? r / R - 1) && (r / R - 1 <? 25 * nb)); [|reflexivity].
  destruct c; cbn [azero]; try discriminate; try reflexivity.
  intros H. unfold posval. rewrite index_of_none; [reflexivity|]. intros Hin. apply negb_true_iff in H.
  assert (existsb (Nat.eqb n) nz = true) as E; [|congruence]. apply existsb_exists. exists n. split; [|apply Nat.eqb_refl].
  apply in_map_iff. eexists. split; [|exact Hin]. reflexivity.
Qed.
Lemma zero_ev r e z : aval nz e = Some z -> ev r e = z.
Proof. apply aval_spec. exact atk_zero. Qed.

(** the first row of round [t] of block [b] *)
Definition brow (b t : Z) : Z := R * (1 + 25 * b + t).
Definition inb (b t : Z) : Prop := 0 <= b < nb /\ 0 <= t < 25.
Lemma brow_bound b t : inb b t -> R <= brow b t /\ brow b t + R <= R * (1 + 25 * nb).
Proof. intros [H1 H2]. unfold brow. pose proof R_pos. nia. Qed.
Lemma atk_at b t i c : inb b t -> 0 <= i < R ->
  atk c (brow b t + i) =
    match c with
    | KCell n => posval (n, Z.to_nat i) b t
    | KFinal => if (i =? 0) && (t =? 24) then kb2z (bk_final (the_blk b)) else 0
    | KWord => if t <? 17 then atk_word b t else 0
    | KLeft => atk_left b t
    | KLo | KHi => 0
    end.
Proof.
  intros [H1 H2] Hi. pose proof R_pos as HR. unfold atk, brow.
  assert ((R * (1 + 25 * b + t) + i) / R = 1 + 25 * b + t) as ->.
  { symmetry; apply Z.div_unique with i; lia. }
  assert ((R * (1 + 25 * b + t) + i) mod R = i) as ->.
  { symmetry; apply Z.mod_unique with (1 + 25 * b + t); lia. }
  replace (1 + 25 * b + t - 1) with (25 * b + t) by lia.
  assert ((0 <=? 25 * b + t) && (25 * b + t <? 25 * nb) = true) as ->.
  { rewrite andb_true_iff, Z.leb_le, Z.ltb_lt. lia. }
  assert ((25 * b + t) / 25 = b) as -> by (symmetry; apply Z.div_unique with t; lia).
  assert ((25 * b + t) mod 25 = t) as -> by (symmetry; apply Z.mod_unique with b; lia).
  reflexivity.
Qed.
Lemma atk_low c r : 0 <= r < R -> atk c r = 0.
Proof. intros H. unfold atk. rewrite Z.div_small by lia. reflexivity. Qed.
Lemma ev_A b t rot i c : inb b t -> 0 <= i < R -> rot = i -> ev (brow b t) (KA c rot) = atk c (brow b t + i).
Proof.
  intros Hb Hi ->. cbn [evz]. f_equal. apply Z.mod_small. pose proof (brow_bound _ _ Hb). lia.
Qed.
Lemma ev_A' b t b' t' rot i c : inb b' t' -> 0 <= i < R -> brow b t + rot = brow b' t' + i -> ev (brow b t) (KA c rot) = atk c (brow b' t' + i).
Proof.
  intros Hb Hi E. cbn [evz]. rewrite E. f_equal. apply Z.mod_small. pose proof (brow_bound _ _ Hb). lia.
Qed.

Definition in_cell (i : nat) : kcell := nth i (map pt_cell (kc_input cf)) (0, 0)%nat.
Lemma special_input i : (i < 8)%nat -> nth_error (special_cells cf) i = Some (in_cell i).
Proof.
  intros Hi. destruct atk_parts as (_ & _ & H8 & _). unfold special_cells, in_cell.
  rewrite nth_error_app1 by (rewrite map_length; lia). apply nth_error_nth'. rewrite map_length. lia.
Qed.
Lemma special_pad i : (i < 8)%nat -> nth_error (special_cells cf) (8 + i) = Some (pad_cell cf i).
Proof.
  intros Hi. destruct atk_parts as (_ & _ & H8 & H8' & _). unfold special_cells, pad_cell.
  rewrite nth_error_app2 by (rewrite map_length; lia). rewrite map_length, H8.
  rewrite nth_error_app1 by lia. replace (8 + i - 8)%nat with i by lia. apply nth_error_nth'. lia.
Qed.
Lemma special_nodup : NoDup (special_cells cf).
Proof.
  destruct atk_parts as (H & _). revert H. generalize (special_cells cf). intros l. induction l as [|x l IH]; cbn; [constructor|].
  intros H. inversion H; subst. constructor; [|auto]. intros Hin. apply H2. apply in_or_app. auto.
Qed.
Lemma special_row c : In c (special_cells cf) -> 0 <= Z.of_nat (snd c) < R.
Proof.
  destruct atk_parts as (_ & H & _). intros Hin. rewrite Forall_forall in H. specialize (H c (in_or_app _ _ _ (or_introl Hin))). lia.
Qed.
Lemma cell_ev b t c : inb b t -> 0 <= Z.of_nat (snd c) < R -> ev (brow b t) (cexpr c) = posval c b t.
Proof.
  intros Hb Hc. unfold cexpr. rewrite (ev_A b t _ (Z.of_nat (snd c)) _ Hb Hc eq_refl), atk_at by assumption.
  rewrite Nat2Z.id. now destruct c.
Qed.
Lemma input_ev b t i : inb b t -> (i < 8)%nat -> ev (brow b t) (input_byte cf i) = if t <? 17 then bk_byte (the_blk b) (8 * t + Z.of_nat i) else 0.
Proof.
  intros Hb Hi. pose proof (special_input i Hi) as Hs.
  assert (pt_cell (nth i (kc_input cf) (KPart 0 (0, 0)%nat)) = in_cell i) as E.
  { unfold in_cell. change (0, 0)%nat with (pt_cell (KPart 0 (0,0)%nat)) at 2. now rewrite map_nth. }
  unfold input_byte, pexpr. rewrite E. rewrite cell_ev; [|assumption|apply special_row; now apply nth_error_In in Hs].
  unfold posval. rewrite (index_of_nth _ _ _ special_nodup Hs). destruct (Nat.ltb_spec i 8); [reflexivity | lia].
Qed.
Lemma pad_pos b t i : (i < 8)%nat -> posval (pad_cell cf i) b t = if t <? 17 then bk_pad (the_blk b) (8 * t + Z.of_nat i) else 0.
Proof.
  intros Hi. unfold posval. rewrite (index_of_nth _ _ _ special_nodup (special_pad i Hi)).
  destruct (Nat.ltb_spec (8 + i) 8); [lia|]. destruct (Nat.ltb_spec (8 + i) 16); [|lia].
  replace (Z.of_nat (8 + i) - 8) with (Z.of_nat i) by lia. reflexivity.
Qed.
Lemma pad_row i : (i < 8)%nat -> 0 <= Z.of_nat (snd (pad_cell cf i)) < R.
Proof. intros Hi. apply special_row. eapply nth_error_In. now apply special_pad. Qed.
Lemma pad_ev b t i : inb b t -> (i < 8)%nat ->
  ev (brow b t) (cexpr (pad_cell cf i)) = if t <? 17 then bk_pad (the_blk b) (8 * t + Z.of_nat i) else 0.
Proof. intros Hb Hi. rewrite cell_ev; [now apply pad_pos | assumption | now apply pad_row]. Qed.
(** the padding flag before the first byte of the round *)
Lemma the_blk_ok b : 0 <= b < nb -> bk_ok (the_blk b) /\ (bk_final (the_blk b) = false -> b + 1 < nb /\ bk_left (the_blk (b + 1)) = bk_left (the_blk b) - 136).
Proof.
  intros Hb. destruct (blks_ok_nth blks Hok (Z.to_nat b) ltac:(lia)) as [H1 H2]. split; [exact H1|]. intros H.
  destruct (H2 H) as [H3 H4]. split; [lia|]. unfold the_blk. replace (Z.to_nat (b + 1)) with (S (Z.to_nat b)) by lia. exact H4.
Qed.
Lemma pad7_prev b t : inb b t -> t < 17 -> ev (brow b t) (cat (pad_cell cf 7) (- R)) = bk_pad (the_blk b) (8 * t - 1).
Proof.
  intros Hb Ht. pose proof (pad_row 7 ltac:(lia)) as Hrow. unfold cat.
  destruct (Z.eq_dec t 0) as [->|Hne].
  - replace (bk_pad (the_blk b) (8 * 0 - 1)) with 0.
    2:{ destruct (the_blk_ok b (proj1 Hb)) as [[H _] _]. unfold bk_pad. destruct (Z.leb_spec (136 - bk_npad (the_blk b)) (8 * 0 - 1)); [lia | reflexivity]. }
    destruct (Z.eq_dec b 0) as [->|Hb0].
    + cbn [evz]. unfold brow. replace (R * (1 + 25 * 0 + 0) + (Z.of_nat (snd (pad_cell cf 7)) + - R)) with (Z.of_nat (snd (pad_cell cf 7))) by lia.
      rewrite Z.mod_small. 1: now apply atk_low. pose proof (brow_bound 0 0 Hb). unfold brow in H. lia.
    + rewrite (ev_A' b 0 (b - 1) 24 _ (Z.of_nat (snd (pad_cell cf 7)))).
      * rewrite atk_at; [|unfold inb in *; lia|assumption]. rewrite Nat2Z.id.
        replace (fst (pad_cell cf 7), snd (pad_cell cf 7)) with (pad_cell cf 7) by now destruct (pad_cell cf 7).
        now rewrite pad_pos by lia.
      * unfold inb in *; lia.
      * assumption.
      * unfold brow; lia.
  - rewrite (ev_A' b t b (t - 1) _ (Z.of_nat (snd (pad_cell cf 7)))).
    + rewrite atk_at; [|unfold inb in *; lia|assumption]. rewrite Nat2Z.id.
      replace (fst (pad_cell cf 7), snd (pad_cell cf 7)) with (pad_cell cf 7) by now destruct (pad_cell cf 7).
      rewrite pad_pos by lia. destruct (Z.ltb_spec (t - 1) 17); [|lia]. f_equal. lia.
    + unfold inb in *; lia.
    + assumption.
    + unfold brow; lia.
Qed.

(** fixed columns *)
Lemma fx_at b t c : inb b t -> ev (brow b t) (KF c 0) =
  match c with
  | QEn => 1 | QFirst => 0 | QRound => kb2z (t <? 24) | QAbsorb | QRoundLast => kb2z (t =? 24) | QInput => kb2z (t <? 17)
  | QInputLast => kb2z (t =? 16) | KRc => pack_u64 (nth (Z.to_nat t) ROUND_CST 0)
  end.
Proof.
  intros Hb. pose proof (brow_bound _ _ Hb) as Hr. pose proof R_pos as HR. destruct Hb as [Hb Ht].
  cbn [evz]. rewrite Z.add_0_r, Z.mod_small by lia. unfold atk_fx. destruct (Z.ltb_spec (brow b t) (R * (1 + 25 * nb))); [|lia].
  unfold kfixed_value.
  assert (brow b t mod R = 0) as -> by (unfold brow; rewrite Z.mul_comm; apply Z.mod_mul; lia).
  assert (brow b t / R = 1 + 25 * b + t) as -> by (unfold brow; rewrite Z.mul_comm; apply Z.div_mul; lia).
  replace (1 + 25 * b + t - 1) with (25 * b + t) by lia.
  assert ((25 * b + t) mod 25 = t) as -> by (symmetry; apply Z.mod_unique with b; lia).
  assert ((1 + 25 * b + t =? 0) = false) as -> by (apply Z.eqb_neq; lia).
  assert ((brow b t =? 0) = false) as E by (apply Z.eqb_neq; lia).
  destruct c; cbn [negb andb orb Z.eqb]; rewrite ?E; try reflexivity.
Qed.
Lemma fx_0 c : ev 0 (KF c 0) = match c with QEn | QFirst | QAbsorb => 1 | _ => 0 end.
Proof.
  pose proof R_pos as HR. assert (0 < R * (1 + 25 * nb)) by nia.
  cbn [evz]. rewrite Z.add_0_r, Z.mod_small by lia. unfold atk_fx. destruct (Z.ltb_spec 0 (R * (1 + 25 * nb))); [|lia].
  unfold kfixed_value. rewrite Z.div_small, Z.mod_small by lia. destruct c; reflexivity.
Qed.
(** the rows: row 0, the first row of a round, or a row where the selectors are zero *)
Lemma row_cases r : 0 <= r < rows ->
  r = 0 \/ (exists b t, inb b t /\ r = brow b t) \/
  ((forall c, c <> KRc -> ev r (KF c 0) = 0) /\ ev r (KA KFinal 0) = 0).
Proof.
  intros Hr. pose proof R_pos as HR. destruct (Z.eq_dec r 0) as [->|H0]; [auto|]. right.
  destruct (Z_lt_ge_dec r (R * (1 + 25 * nb))) as [Hlt|Hge].
  - destruct (Z.eq_dec (r mod R) 0) as [Hm|Hm].
    + left. set (g := r / R). assert (r = R * g) as Er by (unfold g; pose proof (Z.div_mod r R); lia).
      exists ((g - 1) / 25), ((g - 1) mod 25). pose proof (Z.mod_pos_bound (g - 1) 25 ltac:(lia)).
      pose proof (Z.div_mod (g - 1) 25 ltac:(lia)). assert (1 <= g < 1 + 25 * nb) by nia.
      split; [unfold inb; split; [|lia] | unfold brow; rewrite Er; f_equal; lia].
      split; [apply Z.div_pos; lia | apply Z.div_lt_upper_bound; lia].
    + right. split.
      * intros c Hc. cbn [evz]. rewrite Z.add_0_r, Z.mod_small by lia. unfold atk_fx. destruct (Z.ltb_spec r (R * (1 + 25 * nb))); [|lia].
        unfold kfixed_value. assert ((r mod R =? 0) = false) as -> by now apply Z.eqb_neq.
        assert ((r =? 0) = false) as -> by now apply Z.eqb_neq.
        destruct c; try congruence; cbn [andb]; rewrite ?andb_false_r; reflexivity.
      * cbn [evz]. rewrite Z.add_0_r, Z.mod_small by lia. unfold atk. assert ((r mod R =? 0) = false) as -> by now apply Z.eqb_neq.
        destruct (_ && _); reflexivity.
  - right. split.
    + intros c Hc. cbn [evz]. rewrite Z.add_0_r, Z.mod_small by lia. unfold atk_fx. destruct (Z.ltb_spec r (R * (1 + 25 * nb))); [lia|reflexivity].
    + cbn [evz]. rewrite Z.add_0_r, Z.mod_small by lia. unfold atk.
      assert (r / R - 1 >= 25 * nb). { assert (1 + 25 * nb <= r / R); [|lia]. apply Z.div_le_lower_bound; lia. }
      destruct (Z.ltb_spec (r / R - 1) (25 * nb)); [lia|]. rewrite andb_false_r. reflexivity.
Qed.

(** ** The gates *)
Definition allz (r : Z) (l : list kexpr) : Prop := Forall (fun e => ev r e = 0) l.
Lemma kdecode_ev r parts : ev r (kdecode parts) = fold_right (fun q acc => acc * 8 ^ Z.of_nat (pt_bits q) + ev r (pexpr q)) 0 parts.
Proof.
  unfold kdecode. rewrite <- fold_left_rev_right, rev_involutive.
  induction parts as [|q l IH]; cbn [fold_right evz]; [reflexivity|]. now rewrite IH.
Qed.
Lemma iota_ev b t : inb b t -> t < 24 -> ev (brow b t) (iota_constraint cf) = 0.
Proof.
  intros Hb Ht. unfold iota_constraint, ksub. change (ev (brow b t) (KSum (kdecode (kc_iota cf)) (KNeg (KSum (kdecode (map (KPart (bits_chi (kc_k cf))) (nth2 [] (nth 2 (kc_cells cf) []) 0 0))) (KF KRc 0)))))
    with (ev (brow b t) (kdecode (kc_iota cf)) + - (ev (brow b t) (kdecode (map (KPart (bits_chi (kc_k cf))) (nth2 [] (nth 2 (kc_cells cf) []) 0 0))) + ev (brow b t) (KF KRc 0))).
  destruct atk_parts as (Hnd & Hrow & H8 & H8' & Hn & Hchi & _). rewrite (zero_ev _ _ _ Hchi), (fx_at b t KRc Hb).
  rewrite kdecode_ev. destruct (kc_iota cf) as [|q0 rest] eqn:E; [now cbn in Hn|].
  cbn [fold_right]. cbn [skipn firstn map] in Hnd.
  assert (Hs : nth_error (special_cells cf) 16 = Some (pt_cell q0)).
  { unfold special_cells. rewrite E. cbn [firstn map]. rewrite app_assoc, nth_error_app2; rewrite app_length, map_length, H8, H8'; [reflexivity|lia]. }
  assert (forall l, (forall q, In q l -> In q rest) -> fold_right (fun q acc => acc * 8 ^ Z.of_nat (pt_bits q) + ev (brow b t) (pexpr q)) 0 l = 0) as Hz.
  { induction l as [|q l IH]; intros Hin; cbn [fold_right]; [reflexivity|]. rewrite IH by (intros; apply Hin; now right).
    unfold pexpr. rewrite cell_ev; [|assumption|].
    - unfold posval. rewrite index_of_none; [lia|]. intros Hq.
      assert (In (pt_cell q) (map pt_cell rest)) as Hq' by (apply in_map, Hin; now left).
      clear - Hnd Hq Hq'. revert Hnd Hq. generalize (special_cells cf). intros l; induction l as [|x l IH]; [contradiction|].
      cbn. intros H [->|H']; inversion H; subst; [apply H2, in_or_app; auto | auto].
    - rewrite Forall_forall in Hrow. cut ((snd (pt_cell q) < rr)%nat); [lia|]. apply Hrow. apply in_or_app. right. right. apply in_map, Hin. now left. }
  rewrite Hz by auto. unfold pexpr. rewrite cell_ev; [|assumption|apply special_row; now apply nth_error_In in Hs].
  unfold posval. rewrite (index_of_nth _ _ _ special_nodup Hs). cbn [Nat.ltb Nat.leb]. lia.
Qed.
Lemma kcond_off r c l : ev r c = 0 -> allz r (kcond c l).
Proof. intros H. unfold allz, kcond. apply Forall_map, Forall_forall. intros e _. cbn [evz]. rewrite H. lia. Qed.
Lemma kcond_on r c l : allz r l -> allz r (kcond c l).
Proof. intros H. unfold allz, kcond in *. apply Forall_map. revert H. apply Forall_impl. intros e He. cbn [evz]. rewrite He. lia. Qed.
Lemma round_ok r : 0 <= r < rows -> allz r (kcond (q QRound) (kc_round cf)).
Proof.
  intros Hr. destruct (row_cases r Hr) as [-> | [(b & t & Hb & ->) | [H _]]].
  - apply kcond_off, fx_0.
  - destruct (Z_lt_ge_dec t 24) as [Ht|Ht].
    + apply kcond_on. unfold allz. destruct atk_parts as (_ & _ & _ & _ & _ & _ & H & _). revert H. apply Forall_impl.
      intros e [He | ->]; [now apply zero_ev | now apply iota_ev].
    + apply kcond_off. unfold q. rewrite (fx_at b t QRound Hb). destruct (Z.ltb_spec t 24); [lia|reflexivity].
  - apply kcond_off. apply H. discriminate.
Qed.
Lemma absorb_ok r : allz r (absorb_gate cf).
Proof. destruct atk_parts as (_ & _ & _ & _ & _ & _ & _ & H & _). revert H. apply Forall_impl. intros e; apply zero_ev. Qed.
Lemma squeeze_ok r : allz r (squeeze_gate cf).
Proof. destruct atk_parts as (_ & _ & _ & _ & _ & _ & _ & _ & H & _). revert H. apply Forall_impl. intros e; apply zero_ev. Qed.
Lemma final_ev b t : inb b t -> ev (brow b t) (KA KFinal 0) = if t =? 24 then kb2z (bk_final (the_blk b)) else 0.
Proof. intros Hb. rewrite (ev_A b t 0 0) by (pose proof R_pos; auto; lia). rewrite atk_at by (pose proof R_pos; auto; lia). reflexivity. Qed.
Lemma final_0 : ev 0 (KA KFinal 0) = 0.
Proof.
  pose proof R_pos as HR. cbn [evz]. rewrite Z.mod_small by nia. apply atk_low. lia.
Qed.
Lemma kb2z_bool b : kb2z b * (1 + - kb2z b) = 0.
Proof. now destruct b. Qed.
Lemma input_check_ok r : 0 <= r < rows -> allz r (input_check_gate).
Proof.
  intros Hr. constructor; [|constructor]. unfold kbool, ksub, q.
  change (ev r (KF QEn 0) * (ev r (KA KFinal 0) * (1 + - ev r (KA KFinal 0))) = 0).
  destruct (row_cases r Hr) as [-> | [(b & t & Hb & ->) | [H H']]].
  - rewrite final_0. lia.
  - rewrite (final_ev _ _ Hb). destruct (t =? 24); [rewrite kb2z_bool|]; lia.
  - rewrite H'. lia.
Qed.
Lemma first_row_ok r : 0 <= r < rows -> allz r (first_row_gate).
Proof.
  intros Hr. constructor; [|constructor]. unfold q. change (ev r (KF QFirst 0) * ev r (KA KFinal 0) = 0).
  destruct (row_cases r Hr) as [-> | [(b & t & Hb & ->) | [H H']]].
  - rewrite final_0. lia.
  - rewrite (fx_at _ _ _ Hb). lia.
  - rewrite H'. lia.
Qed.
Lemma kbytes_loop_ev r l : forall v m, ev r (kbytes_loop l v m) = ev r v + m * fold_right (fun e acc => ev r e + 256 * acc) 0 l.
Proof.
  induction l as [|e l IH]; intros v m; cbn [kbytes_loop fold_right]; [lia|]. rewrite IH. cbn [evz]. lia.
Qed.
Lemma input_list b t : inb b t -> map (fun q => ev (brow b t) (pexpr q)) (kc_input cf) = map (fun i => if t <? 17 then bk_byte (the_blk b) (8 * t + Z.of_nat i) else 0) (seq 0 8).
Proof.
  intros Hb. destruct atk_parts as (_ & _ & H8 & _). rewrite <- H8.
  apply nth_ext with (d := ev (brow b t) (pexpr (KPart 0 (0,0)%nat))) (d' := (fun i => if t <? 17 then bk_byte (the_blk b) (8 * t + Z.of_nat i) else 0) 0%nat);
    rewrite ?map_length, ?seq_length; [reflexivity|].
  intros i Hi. rewrite (map_nth (fun q => ev (brow b t) (pexpr q))).
  rewrite (map_nth (fun i => if t <? 17 then bk_byte (the_blk b) (8 * t + Z.of_nat i) else 0)). rewrite seq_nth by lia.
  apply (input_ev b t i Hb). lia.
Qed.
Lemma pads_list b t : inb b t -> map (fun c => ev (brow b t) (cexpr c)) (kc_pads cf) = map (fun i => if t <? 17 then bk_pad (the_blk b) (8 * t + Z.of_nat i) else 0) (seq 0 8).
Proof.
  intros Hb. destruct atk_parts as (_ & _ & _ & H8 & _). rewrite <- H8.
  apply nth_ext with (d := ev (brow b t) (cexpr (0,0)%nat)) (d' := (fun i => if t <? 17 then bk_pad (the_blk b) (8 * t + Z.of_nat i) else 0) 0%nat);
    rewrite ?map_length, ?seq_length; [reflexivity|].
  intros i Hi. rewrite (map_nth (fun c => ev (brow b t) (cexpr c))).
  rewrite (map_nth (fun i => if t <? 17 then bk_pad (the_blk b) (8 * t + Z.of_nat i) else 0)). rewrite seq_nth by lia.
  apply (pad_ev b t i Hb). lia.
Qed.
Lemma ev_masked r a b : ev r (KProd a (knot b)) = ev r a * (1 - ev r b).
Proof. unfold knot, ksub. cbn [evz]. lia. Qed.
Lemma word_ok r : 0 <= r < rows -> allz r (word_gate cf).
Proof.
  intros Hr. unfold word_gate. destruct (row_cases r Hr) as [-> | [(b & t & Hb & ->) | [H H']]]; [apply kcond_off, fx_0 | | apply kcond_off, H; discriminate].
  destruct (Z_lt_ge_dec t 17) as [Ht|Ht].
  2:{ apply kcond_off. unfold q. rewrite (fx_at _ _ _ Hb). destruct (Z.ltb_spec t 17); [lia|reflexivity]. }
  apply kcond_on. constructor; [|constructor]. unfold kfrom_bytes, ksub.
  match goal with |- context [kbytes_loop ?l _ _] => set (es := l) end.
  change (ev (brow b t) (kbytes_loop es (KC 0) 1) + - ev (brow b t) (KA KWord 0) = 0).
  rewrite kbytes_loop_ev. rewrite (ev_A b t 0 0) by (pose proof R_pos; auto; lia). rewrite atk_at by (pose proof R_pos; auto; lia).
  destruct (Z.ltb_spec t 17); [|lia].
  pose proof (input_list b t Hb) as Hi. pose proof (pads_list b t Hb) as Hp.
  destruct (Z.ltb_spec t 17) in Hi; [|lia]. destruct (Z.ltb_spec t 17) in Hp; [|lia].
  destruct atk_parts as (_ & _ & H8 & H8' & _). subst es.
  destruct (kc_input cf) as [|i0 [|i1 [|i2 [|i3 [|i4 [|i5 [|i6 [|i7 [|]]]]]]]]]; try discriminate H8.
  destruct (kc_pads cf) as [|p0 [|p1 [|p2 [|p3 [|p4 [|p5 [|p6 [|p7 [|]]]]]]]]]; try discriminate H8'.
  cbn [map seq] in Hi, Hp. apply list8 in Hi as (E0 & E1 & E2 & E3 & E4 & E5 & E6 & E7). apply list8 in Hp as (F0 & F1 & F2 & F3 & F4 & F5 & F6 & F7).
  cbn [combine map fst snd fold_right]. rewrite !ev_masked. change (ev (brow b t) (KC 0)) with 0.
  rewrite E0, E1, E2, E3, E4, E5, E6, E7, F0, F1, F2, F3, F4, F5, F6, F7.
  unfold atk_word. cbn [seq map fold_right].
  change (256 ^ Z.of_nat 0) with 1. change (256 ^ Z.of_nat 1) with 256. change (256 ^ Z.of_nat 2) with 65536. change (256 ^ Z.of_nat 3) with 16777216.
  change (256 ^ Z.of_nat 4) with 4294967296. change (256 ^ Z.of_nat 5) with 1099511627776. change (256 ^ Z.of_nat 6) with 281474976710656.
  change (256 ^ Z.of_nat 7) with 72057594037927936. ring.
Qed.
Lemma left_ev b t : inb b t -> ev (brow b t) (KA KLeft 0) = atk_left b t.
Proof. intros Hb. rewrite (ev_A b t 0 0) by (pose proof R_pos; auto; lia). rewrite atk_at by (pose proof R_pos; auto; lia). reflexivity. Qed.
Lemma left_next b t : inb b t -> (t < 24 \/ bk_final (the_blk b) = false) -> ev (brow b t) (KA KLeft R) = atk_left b (t + 1).
Proof.
  intros Hb Hc. pose proof R_pos as HR. destruct (Z_lt_ge_dec t 24) as [Ht|Ht].
  - rewrite (ev_A' b t b (t + 1) R 0); [|unfold inb in *; lia|lia|unfold brow; lia]. rewrite atk_at; [reflexivity|unfold inb in *; lia|lia].
  - destruct Hc as [Hc|Hc]; [lia|]. destruct (the_blk_ok b (proj1 Hb)) as [_ H]. destruct (H Hc) as [H1 H2].
    assert (t = 24) as -> by (unfold inb in *; lia).
    rewrite (ev_A' b 24 (b + 1) 0 R 0); [|unfold inb in *; lia|lia|unfold brow; lia]. rewrite atk_at; [|unfold inb in *; lia|lia].
    destruct (the_blk_ok (b + 1) ltac:(unfold inb in *; lia)) as [[H3 _] _].
    unfold atk_left. rewrite H2. unfold bk_final in Hc. apply Z.ltb_ge in Hc. destruct (the_blk_ok b (proj1 Hb)) as [[H4 _] _]. lia.
Qed.
Lemma pad_step b t i : 1 - bk_pad (the_blk b) (8 * t + i) = Z.min (8 * t + i + 1) (136 - bk_npad (the_blk b)) - Z.min (8 * t + i) (136 - bk_npad (the_blk b)).
Proof. unfold bk_pad. destruct (Z.leb_spec (136 - bk_npad (the_blk b)) (8 * t + i)); cbn [kb2z]; lia. Qed.
Lemma ksum_ev r l : ev r (ksum_list l) = fold_right Z.add 0 (map (ev r) l).
Proof.
  unfold ksum_list. enough (forall a, ev r (fold_left KSum l a) = ev r a + fold_right Z.add 0 (map (ev r) l)) as H by (rewrite H; cbn [evz]; lia).
  induction l as [|e l IH]; intros a; cbn [fold_left map fold_right]; [lia|]. rewrite IH. cbn [evz]. lia.
Qed.
Lemma left_ok r : 0 <= r < rows -> allz r (left_gate cf).
Proof.
  intros Hr. unfold left_gate. destruct (row_cases r Hr) as [-> | [(b & t & Hb & ->) | [H H']]]; [ | | apply kcond_off, H; discriminate].
  - apply kcond_on. pose proof R_pos as HR.
    assert (ev 0 (KA KLeft 0) = 0) as HL by (cbn [evz]; rewrite Z.mod_small by nia; apply atk_low; lia).
    apply Forall_cons; [|apply Forall_cons; [|apply Forall_cons; [|apply Forall_cons; [|apply Forall_nil]]]]; unfold knot, ksub, start_new_hash, q.
    + change (ev 0 (KF QFirst 0) * ev 0 (KA KLeft 0) = 0). rewrite HL. lia.
    + change (ev 0 (KA KFinal 0) * ev 0 (KA KLeft 0) = 0). rewrite HL. lia.
    + match goal with |- ev 0 (KProd ?a ?b) = 0 => change (ev 0 a * ev 0 b = 0) end. rewrite fx_0. reflexivity.
    + match goal with |- ev 0 (KProd ?a ?b) = 0 => change (ev 0 a * ev 0 b = 0) end.
      assert (ev 0 (KSum (KC 1) (KNeg (KSum (KF QInput 0) (KSum (KF QFirst 0) (KA KFinal 0))))) = 0) as ->; [|lia].
      change (1 + - (ev 0 (KF QInput 0) + (ev 0 (KF QFirst 0) + ev 0 (KA KFinal 0))) = 0). rewrite !fx_0, final_0. reflexivity.
  - apply kcond_on. destruct (the_blk_ok b (proj1 Hb)) as [Hbk _]. destruct Hbk as (Hn & _ & Hf).
    pose proof (fx_at b t QInput Hb) as HQI. cbv iota beta in HQI. pose proof (fx_at b t QFirst Hb) as HQF. cbv iota beta in HQF.
    pose proof (final_ev b t Hb) as HF. pose proof (left_ev b t Hb) as HL.
    apply Forall_cons; [|apply Forall_cons; [|apply Forall_cons; [|apply Forall_cons; [|apply Forall_nil]]]]; unfold knot, ksub, start_new_hash, q.
    + change (ev (brow b t) (KF QFirst 0) * ev (brow b t) (KA KLeft 0) = 0). rewrite HQF. lia.
    + change (ev (brow b t) (KA KFinal 0) * ev (brow b t) (KA KLeft 0) = 0). rewrite HL, HF. destruct (Z.eqb_spec t 24); [|lia].
      destruct (bk_final (the_blk b)) eqn:E; cbn [kb2z]; [|lia]. unfold atk_left. rewrite Hf by reflexivity. lia.
    + set (S := ksum_list _). change (ev (brow b t) (KF QInput 0) * (ev (brow b t) (KA KLeft 0) + - (ev (brow b t) (KA KLeft R) + (8 + - ev (brow b t) S))) = 0).
      rewrite HQI. destruct (Z.ltb_spec t 17); cbn [kb2z]; [|lia].
      rewrite HL, left_next by (auto; lia). subst S. rewrite ksum_ev, map_map, (pads_list b t Hb).
      destruct (Z.ltb_spec t 17); [|lia]. cbn [seq map fold_right].
      pose proof (pad_step b t (Z.of_nat 0)). pose proof (pad_step b t (Z.of_nat 1)). pose proof (pad_step b t (Z.of_nat 2)). pose proof (pad_step b t (Z.of_nat 3)).
      pose proof (pad_step b t (Z.of_nat 4)). pose proof (pad_step b t (Z.of_nat 5)). pose proof (pad_step b t (Z.of_nat 6)). pose proof (pad_step b t (Z.of_nat 7)).
      unfold atk_left. lia.
    + change ((1 + - (ev (brow b t) (KF QInput 0) + (ev (brow b t) (KF QFirst 0) + ev (brow b t) (KA KFinal 0)))) * (ev (brow b t) (KA KLeft 0) + - ev (brow b t) (KA KLeft R)) = 0).
      rewrite HQI, HQF, HF. destruct (Z.ltb_spec t 17); cbn [kb2z]; [destruct (Z.eqb_spec t 24); lia|].
      destruct (Z.eqb_spec t 24) as [->|Ht].
      * destruct (bk_final (the_blk b)) eqn:E; cbn [kb2z]; [lia|]. rewrite HL, left_next by auto. unfold atk_left. lia.
      * rewrite HL, left_next by (auto; unfold inb in Hb; lia). unfold atk_left. lia.
Qed.
Lemma final_ok r : 0 <= r < rows -> allz r (final_gate cf).
Proof.
  intros Hr. unfold final_gate. apply kcond_on. constructor; [|constructor; [|constructor]].
  - unfold ksub.
    change ((ev r (KF QAbsorb 0) + - ev r (KF QFirst 0)) * (ev r (KA KFinal 0) + - ev r (cat (pad_cell cf 7) (- (8 * R)))) = 0).
    destruct (row_cases r Hr) as [-> | [(b & t & Hb & ->) | [H H']]].
    + rewrite !fx_0. lia.
    + rewrite !(fx_at _ _ _ Hb), (final_ev _ _ Hb). destruct (Z.eqb_spec t 24) as [->|]; [|cbn [kb2z]; lia].
      pose proof (pad_row 7 ltac:(lia)) as Hrow. unfold cat.
      rewrite (ev_A' b 24 b 16 _ (Z.of_nat (snd (pad_cell cf 7)))); [|unfold inb in *; lia|assumption|unfold brow; lia].
      rewrite atk_at; [|unfold inb in *; lia|assumption]. rewrite Nat2Z.id.
      replace (fst (pad_cell cf 7), snd (pad_cell cf 7)) with (pad_cell cf 7) by now destruct (pad_cell cf 7).
      rewrite pad_pos by lia. change (16 <? 17) with true. cbv iota.
      assert (kb2z (bk_final (the_blk b)) = bk_pad (the_blk b) (8 * 16 + Z.of_nat 7)) as ->; [|lia].
      unfold bk_pad, bk_final. f_equal. destruct (Z.ltb_spec 0 (bk_npad (the_blk b))), (Z.leb_spec (136 - bk_npad (the_blk b)) (8 * 16 + Z.of_nat 7)); try reflexivity; lia.
    + rewrite !H by discriminate. lia.
  - match goal with |- ev r (KProd ?a ?b) = 0 => change (ev r a * ev r b = 0); set (S := a) end.
    destruct (row_cases r Hr) as [-> | [(b & t & Hb & ->) | [H H']]].
    + rewrite final_0. lia.
    + rewrite (final_ev _ _ Hb). assert (ev (brow b t) S = 0) as ->; [|lia]. subst S.
      pose proof (brow_bound _ _ Hb) as Hbd. pose proof R_pos as HR.
      enough (forall l a, (forall i, In i l -> (1 <= i < rr)%nat) -> ev (brow b t) (fold_left KSum (map (fun i => KF QEn (- Z.of_nat i)) l) a) = ev (brow b t) a) as HE.
      { rewrite HE; [reflexivity|]. intros i Hi. apply in_seq in Hi. lia. }
      induction l as [|i l IH]; intros a Hl; cbn [map fold_left]; [reflexivity|]. rewrite IH by (intros; apply Hl; now right).
      cbn [evz]. specialize (Hl i (or_introl eq_refl)). rewrite Z.mod_small by lia. unfold atk_fx.
      destruct (Z.ltb_spec (brow b t + - Z.of_nat i) (R * (1 + 25 * nb))); [|lia].
      unfold kfixed_value. assert ((brow b t + - Z.of_nat i) mod R = R - Z.of_nat i) as ->.
      { symmetry. apply Z.mod_unique with (25 * b + t); [lia | unfold brow; lia]. }
      assert ((R - Z.of_nat i =? 0) = false) as -> by (apply Z.eqb_neq; lia). cbn [kb2z]. lia.
    + rewrite H'. lia.
Qed.
Lemma pad_prev_ev b t i : inb b t -> t < 17 -> (i < 8)%nat -> ev (brow b t) (pad_prev cf i) = bk_pad (the_blk b) (8 * t + Z.of_nat i - 1).
Proof.
  intros Hb Ht Hi. unfold pad_prev. destruct i as [|i].
  - rewrite (pad7_prev b t Hb Ht). f_equal. lia.
  - rewrite (pad_ev b t i Hb) by lia. destruct (Z.ltb_spec t 17); [|lia]. f_equal. lia.
Qed.
Lemma padding_ok r : 0 <= r < rows -> allz r (padding_gate cf).
Proof.
  intros Hr. unfold padding_gate. apply kcond_on. apply Forall_app. split; [|apply Forall_app; split].
  - apply Forall_map, Forall_forall. intros i Hi. apply in_seq in Hi. unfold kbool, ksub, q.
    change (ev r (KF QEn 0) * (ev r (cexpr (pad_cell cf i)) * (1 + - ev r (cexpr (pad_cell cf i)))) = 0).
    destruct (row_cases r Hr) as [-> | [(b & t & Hb & ->) | [H H']]].
    + assert (ev 0 (cexpr (pad_cell cf i)) = 0) as ->; [|lia]. pose proof (pad_row i ltac:(lia)). unfold cexpr. cbn [evz].
      rewrite Z.mod_small by nia. apply atk_low. lia.
    + rewrite (pad_ev b t i Hb) by lia. destruct (t <? 17); [|lia]. unfold bk_pad. rewrite kb2z_bool. lia.
    + rewrite H by discriminate. lia.
  - constructor; [|constructor]. unfold q. change (ev r (KF QAbsorb 0) * ev r (cexpr (pad_cell cf 7)) = 0).
    destruct (row_cases r Hr) as [-> | [(b & t & Hb & ->) | [H H']]].
    + assert (ev 0 (cexpr (pad_cell cf 7)) = 0) as ->; [|lia]. pose proof (pad_row 7 ltac:(lia)). unfold cexpr. cbn [evz].
      rewrite Z.mod_small by nia. apply atk_low. lia.
    + rewrite (pad_ev b t 7 Hb) by lia. rewrite (fx_at _ _ _ Hb). destruct (Z.ltb_spec t 17), (Z.eqb_spec t 24); cbn [kb2z]; lia.
    + rewrite H by discriminate. lia.
  - apply Forall_forall. intros e He. apply in_flat_map in He as (i & Hi & He). apply in_seq in Hi.
    assert (Hoff : (ev r (KF QInput 0) = 0 -> ev r (KF QInputLast 0) = 0 -> ev r e = 0)).
    { intros H1 H2. destruct (Nat.eqb i 7); cbn [app In] in He; unfold kand, q, ksub in He; cbn [fold_left] in He.
      - destruct He as [<- | [<- | [<- | []]]]; cbn [evz] in *; rewrite ?H1, ?H2; lia.
      - destruct He as [<- | [<- | []]]; cbn [evz] in *; rewrite ?H1, ?H2; lia. }
    destruct (row_cases r Hr) as [-> | [(b & t & Hb & ->) | [H H']]].
    + apply Hoff; apply fx_0.
    + destruct (Z_lt_ge_dec t 17) as [Ht|Ht].
      2:{ apply Hoff; rewrite (fx_at _ _ _ Hb); [destruct (Z.ltb_spec t 17) | destruct (Z.eqb_spec t 16)]; try reflexivity; lia. }
      clear Hoff. pose proof (fx_at b t QInput Hb) as HQI. cbv iota beta in HQI. pose proof (fx_at b t QInputLast Hb) as HQL. cbv iota beta in HQL.
      pose proof (pad_ev b t i Hb ltac:(lia)) as HP. pose proof (pad_prev_ev b t i Hb Ht ltac:(lia)) as HPP. pose proof (input_ev b t i Hb ltac:(lia)) as HI.
      destruct (Z.ltb_spec t 17); [|lia]. cbn [kb2z] in HQI.
      destruct (the_blk_ok b (proj1 Hb)) as [Hbk _]. destruct Hbk as (Hn & Hbyte & _).
      set (j := 8 * t + Z.of_nat i) in *. assert (0 <= j < 136) as Hj by (unfold inb in Hb; lia).
      assert (HPF : ev (brow b t) (pad_first cf i) = kb2z (j =? 136 - bk_npad (the_blk b))).
      { unfold pad_first, ksub. change (ev (brow b t) (cexpr (pad_cell cf i)) + - ev (brow b t) (pad_prev cf i) = kb2z (j =? 136 - bk_npad (the_blk b))).
        rewrite HP, HPP. unfold bk_pad.
        destruct (Z.leb_spec (136 - bk_npad (the_blk b)) j), (Z.leb_spec (136 - bk_npad (the_blk b)) (j - 1)), (Z.eqb_spec j (136 - bk_npad (the_blk b))); cbn [kb2z]; try reflexivity; lia. }
      assert (Hval : ev (brow b t) (cexpr (pad_cell cf i)) = 0 \/ (ev (brow b t) (cexpr (pad_cell cf i)) = 1 /\ 136 - bk_npad (the_blk b) <= j)).
      { rewrite HP. unfold bk_pad. destruct (Z.leb_spec (136 - bk_npad (the_blk b)) j); cbn [kb2z]; auto. }
      apply in_app_or in He as [He|He].
      * destruct He as [<- | []]. unfold kbool, ksub, q.
        change (ev (brow b t) (KF QInput 0) * (ev (brow b t) (pad_first cf i) * (1 + - ev (brow b t) (pad_first cf i))) = 0).
        rewrite HPF, kb2z_bool. lia.
      * destruct (Nat.eqb_spec i 7) as [->|Hi7].
        -- destruct He as [<- | [<- | []]]; unfold kand, ksub, q; cbn [fold_left].
           ++ change ((1 * (ev (brow b t) (KF QInput 0) + - ev (brow b t) (KF QInputLast 0))) * ev (brow b t) (cexpr (pad_cell cf 7)) * (ev (brow b t) (input_byte cf 7) + - ev (brow b t) (pad_first cf 7)) = 0).
              rewrite HQI, HQL, HI, HPF. destruct Hval as [-> | [-> Hlt]]; [lia|]. rewrite Hbyte by lia.
              destruct (Z.eqb_spec t 16), (Z.eqb_spec j 135); cbn [kb2z]; lia.
           ++ change ((1 * ev (brow b t) (KF QInputLast 0)) * ev (brow b t) (cexpr (pad_cell cf 7)) * (ev (brow b t) (input_byte cf 7) + - (ev (brow b t) (pad_first cf 7) + 128)) = 0).
              rewrite HQL, HI, HPF. destruct Hval as [-> | [-> Hlt]]; [lia|]. rewrite Hbyte by lia.
              destruct (Z.eqb_spec t 16), (Z.eqb_spec j 135); cbn [kb2z]; lia.
        -- destruct He as [<- | []]; unfold kand, ksub, q; cbn [fold_left].
           change ((1 * ev (brow b t) (KF QInput 0)) * ev (brow b t) (cexpr (pad_cell cf i)) * (ev (brow b t) (input_byte cf i) + - ev (brow b t) (pad_first cf i)) = 0).
           rewrite HQI, HI, HPF. destruct Hval as [-> | [-> Hlt]]; [lia|]. rewrite Hbyte by lia.
           assert ((j =? 135) = false) as -> by (apply Z.eqb_neq; unfold inb in Hb; lia). lia.
    + apply Hoff; apply H; discriminate.
Qed.
Lemma gates_ok r : 0 <= r < rows -> allz r (kec_gates cf).
Proof.
  intros Hr. unfold kec_gates, allz.
  apply Forall_app; split; [now apply round_ok|]. apply Forall_app; split; [apply absorb_ok|]. apply Forall_app; split; [apply squeeze_ok|].
  apply Forall_app; split; [now apply input_check_ok|]. apply Forall_app; split; [now apply first_row_ok|].
  apply Forall_app; split; [now apply word_ok|]. apply Forall_app; split; [now apply left_ok|].
  apply Forall_app; split; [now apply final_ok|now apply padding_ok].
Qed.
End Attack.
