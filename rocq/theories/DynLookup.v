(** Model of [BasicDynLookupConfig] (halo2-base/src/virtual_region/lookups/basic.rs): lookups of keys in a dynamic (advice) table.
    Physical cells: the advice cell of set [s], key column [j], row [r] is [PLk s j r] for s < n ([n] = number of sets to look up);
    the table column [j] is [PLk n j r]. Fixed columns are lists of writes (a later write wins; unwritten cells are 0).
    Simplification: the region returns what is written; a row >= usable is the backend's "not enough rows" panic. *)
From Coq Require Import ZArith Lia List Bool.
From Verif Require Import Field Spec Context ContextProofs SatCheck Layout LayoutProofs Synth SynthProofs SynthProofs2.
Import ListNotations.
Local Open Scope nat_scope.

Section D.
Context {p : positive}.
Notation Fp := (F p).

(** basic.rs:120-153 [assign_virtual_to_lookup_to_raw_from_offset] with a copy manager; additionally the fixed cells [key_is_enabled] set to 1 *)
Fixpoint dk_loop (n usable col off : nat) (keys : list (list (AV p))) (m : list (cell * pcell))
  : option (list (nat * nat) * list (pcell * Assigned p) * list (pcell * pcell) * list (cell * pcell)) :=
  match keys with
  | [] => Some ([], [], [], m)
  | t :: keys =>
      let '(col, off) := if Nat.leb n col then (0, S off) else (col, off) in
      if Nat.ltb col n && Nat.ltb off usable then
        match lk_tuple col 0 off t m with
        | None => None
        | Some (w, cp, m1) => match dk_loop n usable (S col) off keys m1 with
                              | None => None
                              | Some (en, w', cp', m2) => Some ((col, off) :: en, w ++ w', cp ++ cp', m2)
                              end
        end
      else None
  end.
(** basic.rs:188-214 [assign_virtual_table_to_raw_from_offset] with a copy manager; [K] is KEY_COL. The writes to [table_is_enabled] in order;
    at the end one disabled row of zeros. *)
Fixpoint dt_loop (n K usable off : nat) (rows : list (list (AV p))) (m : list (cell * pcell))
  : option (list (nat * bool) * list (pcell * Assigned p) * list (pcell * pcell) * list (cell * pcell)) :=
  if Nat.ltb off usable then
    match rows with
    | [] => Some ([(off, false)], map (fun j => (PLk n j off, ATriv F0)) (seq 0 K), [], m)
    | t :: rows =>
        match lk_tuple n 0 off t m with
        | None => None
        | Some (w, cp, m1) => match dt_loop n K usable (S off) rows m1 with
                              | None => None
                              | Some (en, w', cp', m2) => Some ((off, true) :: en, w ++ w', cp ++ cp', m2)
                              end
        end
    end
  else None.

(** a history of calls on one config *)
Inductive dcall := DKeys (off : nat) (keys : list (list (AV p))) | DTable (off : nat) (rows : list (list (AV p))).
Record dphys := mkDphys { dp_ken : list (nat * nat); dp_ten : list (nat * bool); dp_wr : list (pcell * Assigned p); dp_cp : list (pcell * pcell); dp_map : list (cell * pcell) }.
Definition dyn_step (n K usable : nat) (D : dphys) (o : dcall) : option dphys :=
  match o with
  | DKeys off keys => match dk_loop n usable 0 off keys (dp_map D) with
                      | Some (en, w, cp, m) => Some (mkDphys (dp_ken D ++ en) (dp_ten D) (dp_wr D ++ w) (dp_cp D ++ cp) m)
                      | None => None end
  | DTable off rows => match dt_loop n K usable off rows (dp_map D) with
                       | Some (en, w, cp, m) => Some (mkDphys (dp_ken D) (dp_ten D ++ en) (dp_wr D ++ w) (dp_cp D ++ cp) m)
                       | None => None end
  end.
Fixpoint dyn_run (n K usable : nat) (D : dphys) (l : list dcall) : option dphys :=
  match l with [] => Some D | o :: l => match dyn_step n K usable D o with Some D' => dyn_run n K usable D' l | None => None end end.
Definition dyn0 (m : list (cell * pcell)) : dphys := mkDphys [] [] [] [] m.

(** ** Specification: what the backend enforces, basic.rs:66-75 [lookup_any]. Input rows are the usable ones; the table has all rows of the
    column, also the [total - usable] blinded ones, where fixed columns are 0 and advice is arbitrary. *)
Definition key_enabled (D : dphys) (s r : nat) : bool := existsb (fun e => Nat.eqb (fst e) s && Nat.eqb (snd e) r) (dp_ken D).
Definition table_enabled (D : dphys) (r : nat) : bool := match find (fun e => Nat.eqb (fst e) r) (rev (dp_ten D)) with Some e => snd e | None => false end.
Definition dyn_sat (n K usable total : nat) (A : pcell -> Fp) (D : dphys) : Prop :=
  (forall x y, In (x, y) (dp_cp D) -> A x = A y) /\
  (forall s r, s < n -> r < usable -> exists r', r' < total /\ table_enabled D r' = key_enabled D s r /\ forall j, j < K -> A (PLk s j r) = A (PLk n j r')).
Definition dval (D : dphys) (A : pcell -> Fp) (a : AV p) : Fp :=
  match av_cell a with Some d => match find_p (dp_map D) d with Some x => A x | None => F0 end | None => F0 end.

(** ** Proofs *)
Lemma dk_lk n usable keys : forall col off m en w cp m', dk_loop n usable col off keys m = Some (en, w, cp, m') -> lk_loop n usable col off keys m = Some (w, cp, m').
Proof.
  induction keys as [|t keys IH]; intros col off m en w cp m' E; cbn [dk_loop lk_loop] in *; [injection E as _ <- <- <-; auto|].
  destruct (Nat.leb n col); match goal with |- context [if ?b then _ else _] => destruct b; [|discriminate] end;
  match type of E with context [lk_tuple ?a ?b ?c ?d ?e] => destruct (lk_tuple a b c d e) as [[[w1 cp1] m1]|]; [|discriminate] end;
  match type of E with context [dk_loop ?a ?b ?c ?d ?e ?f] => destruct (dk_loop a b c d e f) as [[[[en2 w2] cp2] m2]|] eqn:E2; [|discriminate] end;
  injection E as _ <- <- <-; now rewrite (IH _ _ _ _ _ _ _ E2).
Qed.
(** enabled cells are exactly the cells of the keys *)
Lemma dk_en n usable keys : 0 < n -> forall col off m en w cp m', col <= n -> dk_loop n usable col off keys m = Some (en, w, cp, m') ->
  en = map (fun k => ((off * n + col + k) mod n, (off * n + col + k) / n)) (seq 0 (length keys)) /\ (forall e, In e en -> fst e < n /\ snd e < usable).
Proof.
  intros Hn. induction keys as [|t keys IH]; intros col off m en w cp m' Hc E; cbn [dk_loop] in E; [injection E as <- _ _ _; split; [auto|intros ? []]|].
  assert (G : forall col' off', col' < n -> off' * n + col' = off * n + col ->
     (if Nat.ltb col' n && Nat.ltb off' usable then
        match lk_tuple col' 0 off' t m with
        | None => None
        | Some (w, cp, m1) => match dk_loop n usable (S col') off' keys m1 with
                              | None => None
                              | Some (en, w', cp', m2) => Some ((col', off') :: en, w ++ w', cp ++ cp', m2)
                              end
        end
      else None) = Some (en, w, cp, m') ->
     en = map (fun k => ((off * n + col + k) mod n, (off * n + col + k) / n)) (seq 0 (length (t :: keys))) /\ (forall e, In e en -> fst e < n /\ snd e < usable)).
  { intros col' off' H1 H2 E'. destruct (Nat.ltb_spec col' n); [|lia]. destruct (Nat.ltb_spec off' usable); [|discriminate]. cbn [andb] in E'.
    destruct (lk_tuple col' 0 off' t m) as [[[w1 cp1] m1]|]; [|discriminate]. destruct (dk_loop n usable (S col') off' keys m1) as [[[[en2 w2] cp2] m2]|] eqn:E2; [|discriminate].
    injection E' as <- _ _ _. apply IH in E2 as [-> HB]; [|lia]. split.
    - cbn [length seq map]. rewrite Nat.add_0_r, <- H2. destruct (div_mod_at n col' off' H1) as [-> ->]. f_equal. rewrite <- seq_shift, map_map. apply map_ext. intros k.
      replace (off' * n + S col' + k) with (off' * n + col' + S k) by lia. reflexivity.
    - intros e [<-|He]; auto. }
  destruct (Nat.leb_spec n col).
  - apply (G 0 (S off)); auto. assert (col = n) by lia. subst. cbn. lia.
  - apply (G col off); auto.
Qed.

(** one lookup or table tuple: its virtual cells are tied to the physical row *)
Lemma tuple_tied col off (t : list (AV p)) m w cp m' mf (A : pcell -> Fp) : lk_tuple col 0 off t m = Some (w, cp, m') ->
  (forall d x, find_p m' d = Some x -> find_p mf d = Some x) -> (forall x y, In (x, y) cp -> A x = A y) ->
  forall i a, nth_error t i = Some a -> exists d x, av_cell a = Some d /\ find_p mf d = Some x /\ A x = A (PLk col i off).
Proof.
  intros E Hm HC i a Hi. apply lk_tuple_spec in E as (_ & H2 & _). destruct (H2 i a Hi) as (d & x & G1 & G2 & _ & G4). exists d, x. split; auto. split; auto.
  cbn [Nat.add] in G4. destruct G4 as [G4| ->]; auto.
Qed.
Lemma dk_tied n usable keys : forall col off m en w cp m' mf (A : pcell -> Fp), dk_loop n usable col off keys m = Some (en, w, cp, m') ->
  (forall d x, find_p m' d = Some x -> find_p mf d = Some x) -> (forall x y, In (x, y) cp -> A x = A y) ->
  (forall d x, find_p m d = Some x -> find_p m' d = Some x) /\
  forall t, In t keys -> exists s r, In (s, r) en /\ s < n /\ r < usable /\ forall i a, nth_error t i = Some a -> exists d x, av_cell a = Some d /\ find_p mf d = Some x /\ A x = A (PLk s i r).
Proof.
  induction keys as [|t keys IH]; intros col off m en w cp m' mf A E Hm HC; cbn [dk_loop] in E. { injection E as _ _ _ <-. split; auto. intros ? []. }
  destruct (if Nat.leb n col then (0, S off) else (col, off)) as [s r]. destruct (Nat.ltb_spec s n) as [Hs|]; [|discriminate]. destruct (Nat.ltb_spec r usable) as [Hr|]; [|discriminate]. cbn [andb] in E.
  destruct (lk_tuple s 0 r t m) as [[[w1 cp1] m1]|] eqn:E1; [|discriminate]. destruct (dk_loop n usable (S s) r keys m1) as [[[[en2 w2] cp2] m2]|] eqn:E2; [|discriminate]. injection E as <- _ <- <-.
  destruct (IH _ _ _ _ _ _ _ mf A E2 Hm) as [M1 H]. { intros x y Hx. apply HC, in_or_app. auto. }
  split. { intros d x Hd. apply M1. apply lk_tuple_spec in E1 as (G & _). auto. }
  intros u [<-|Hu].
  - exists s, r. split; [now left|]. split; auto. split; auto. apply (tuple_tied _ _ _ _ _ _ _ mf A E1); [auto|]. intros x y Hx. apply HC, in_or_app. auto.
  - destruct (H u Hu) as (s' & r' & G1 & G2 & G3 & G4). exists s', r'. split; [now right|]. auto.
Qed.
Lemma dt_tied n K usable rows : forall off m en w cp m' mf (A : pcell -> Fp), dt_loop n K usable off rows m = Some (en, w, cp, m') ->
  (forall d x, find_p m' d = Some x -> find_p mf d = Some x) -> (forall x y, In (x, y) cp -> A x = A y) ->
  (forall d x, find_p m d = Some x -> find_p m' d = Some x) /\
  forall r, In (r, true) en -> exists t, In t rows /\ forall i a, nth_error t i = Some a -> exists d x, av_cell a = Some d /\ find_p mf d = Some x /\ A x = A (PLk n i r).
Proof.
  induction rows as [|t rows IH]; intros off m en w cp m' mf A E Hm HC; cbn [dt_loop] in E; (destruct (Nat.ltb off usable); [|discriminate]).
  - injection E as <- _ _ <-. split; auto. intros r [H|[]]. discriminate.
  - destruct (lk_tuple n 0 off t m) as [[[w1 cp1] m1]|] eqn:E1; [|discriminate]. destruct (dt_loop n K usable (S off) rows m1) as [[[[en2 w2] cp2] m2]|] eqn:E2; [|discriminate]. injection E as <- _ <- <-.
    destruct (IH _ _ _ _ _ _ mf A E2 Hm) as [M1 H]. { intros x y Hx. apply HC, in_or_app. auto. }
    split. { intros d x Hd. apply M1. apply lk_tuple_spec in E1 as (G & _). auto. }
    intros r [Hr|Hr].
    + injection Hr as ->. exists t. split; [now left|]. apply (tuple_tied _ _ _ _ _ _ _ mf A E1); [auto|]. intros x y Hx. apply HC, in_or_app. auto.
    + destruct (H r Hr) as (t' & G1 & G2). exists t'. split; [now right|auto].
Qed.
Lemma run_tied n K usable l : forall D D' (A : pcell -> Fp) mf, dyn_run n K usable D l = Some D' ->
  (forall d x, find_p (dp_map D') d = Some x -> find_p mf d = Some x) -> (forall x y, In (x, y) (dp_cp D') -> A x = A y) ->
  (forall d x, find_p (dp_map D) d = Some x -> find_p (dp_map D') d = Some x) /\ incl (dp_cp D) (dp_cp D') /\ incl (dp_ken D) (dp_ken D') /\
  (forall off keys t, In (DKeys off keys) l -> In t keys -> exists s r, In (s, r) (dp_ken D') /\ s < n /\ r < usable /\
      forall i a, nth_error t i = Some a -> exists d x, av_cell a = Some d /\ find_p mf d = Some x /\ A x = A (PLk s i r)) /\
  (forall r, In (r, true) (dp_ten D') -> In (r, true) (dp_ten D) \/ exists off rows t, In (DTable off rows) l /\ In t rows /\
      forall i a, nth_error t i = Some a -> exists d x, av_cell a = Some d /\ find_p mf d = Some x /\ A x = A (PLk n i r)).
Proof.
  induction l as [|o l IH]; intros D D' A mf E Hm HC; cbn [dyn_run] in E.
  { injection E as <-. split; [auto|]. split; [apply incl_refl|]. split; [apply incl_refl|]. split; [intros ? ? ? []|auto]. }
  destruct (dyn_step n K usable D o) as [D1|] eqn:E1; [|discriminate]. destruct (IH _ _ A mf E Hm HC) as (M & I1 & I2 & HK & HT).
  destruct o as [off keys|off rows]; cbn [dyn_step] in E1.
  - destruct (dk_loop n usable 0 off keys (dp_map D)) as [[[[en w] cp] m]|] eqn:E2; [|discriminate]. injection E1 as <-. cbn [dp_map dp_cp dp_ken dp_ten] in *.
    destruct (dk_tied _ _ _ _ _ _ _ _ _ _ mf A E2) as [M1 G]. { intros; auto. } { intros x y Hx. apply HC, I1, in_or_app. auto. }
    split; [auto|]. split; [intros e He; apply I1, in_or_app; auto|]. split; [intros e He; apply I2, in_or_app; auto|]. split.
    + intros off' keys' t [H|H] Ht; [|eauto]. injection H as <- <-. destruct (G t Ht) as (s & r & G1 & G2). exists s, r. split; auto. apply I2, in_or_app. auto.
    + intros r Hr. destruct (HT r Hr) as [H|(o1 & rr & t & H1 & H2)]; auto. right. exists o1, rr, t. split; [now right|auto].
  - destruct (dt_loop n K usable off rows (dp_map D)) as [[[[en w] cp] m]|] eqn:E2; [|discriminate]. injection E1 as <-. cbn [dp_map dp_cp dp_ken dp_ten] in *.
    destruct (dt_tied _ _ _ _ _ _ _ _ _ _ mf A E2) as [M1 G]. { intros; auto. } { intros x y Hx. apply HC, I1, in_or_app. auto. }
    split; [auto|]. split; [intros e He; apply I1, in_or_app; auto|]. split; [auto|]. split.
    + intros off' keys' t [H|H] Ht; [discriminate|eauto].
    + intros r Hr. destruct (HT r Hr) as [H|(o1 & rr & t & H1 & H2)]; [|right; exists o1, rr, t; split; [now right|auto]].
      apply in_app_or in H as [H|H]; auto. right. destruct (G r H) as (t & G1 & G2). exists off, rows, t. split; [now left|auto].
Qed.
Lemma table_enabled_in D r : table_enabled D r = true -> In (r, true) (dp_ten D).
Proof.
  unfold table_enabled. destruct (find _ _) as [[r' b]|] eqn:E; [|discriminate]. cbn. intros ->. apply find_some in E as [E1 E2]. cbn in E2. apply Nat.eqb_eq in E2. subst. now apply in_rev in E1.
Qed.
Lemma list_nth_ext {A} (l l' : list A) : (forall i, nth_error l i = nth_error l' i) -> l = l'.
Proof.
  revert l'. induction l as [|a l IH]; intros [|b l'] H; auto; try (specialize (H 0); discriminate). pose proof (H 0) as H0. injection H0 as <-. f_equal. apply IH. intros i. apply (H (S i)).
Qed.
Theorem dyn_sound n K usable total m l D (A : pcell -> Fp) : dyn_run n K usable (dyn0 m) l = Some D -> dyn_sat n K usable total A D ->
  (forall off rows t, In (DTable off rows) l -> In t rows -> length t = K) ->
  forall off keys t, In (DKeys off keys) l -> In t keys -> length t = K ->
  exists off' rows u, In (DTable off' rows) l /\ In u rows /\ map (dval D A) t = map (dval D A) u.
Proof.
  intros E [HC HL] HK off keys t H1 H2 H3. destruct (run_tied n K usable l _ _ A (dp_map D) E) as (_ & _ & _ & GK & GT); auto.
  destruct (GK off keys t H1 H2) as (s & r & G1 & G2 & G3 & G4). destruct (HL s r G2 G3) as (r' & Hr & Hen & Heq).
  assert (HE : key_enabled D s r = true). { unfold key_enabled. apply existsb_exists. exists (s, r). cbn. rewrite !Nat.eqb_refl. auto. }
  rewrite HE in Hen. apply table_enabled_in in Hen. destruct (GT r' Hen) as [[]|(off' & rows & u & T1 & T2 & T3)]. exists off', rows, u. split; auto. split; auto.
  pose proof (HK _ _ _ T1 T2) as HU. apply list_nth_ext. intros i. rewrite !nth_error_map.
  destruct (nth_error t i) as [a|] eqn:Ea; destruct (nth_error u i) as [b|] eqn:Eb; cbn.
  - destruct (G4 i a Ea) as (d & x & D1 & D2 & D3), (T3 i b Eb) as (d' & x' & D1' & D2' & D3'). unfold dval. rewrite D1, D2, D1', D2'. rewrite D3, D3'. f_equal. apply Heq. rewrite <- H3. apply nth_error_Some. congruence.
  - apply nth_error_None in Eb. assert (i < length t) by (apply nth_error_Some; congruence). lia.
  - apply nth_error_None in Ea. assert (i < length u) by (apply nth_error_Some; congruence). lia.
  - auto.
Qed.

(** ** completeness: one table and one list of keys *)
Lemma dt_spec n K usable rows : forall off m en w cp m', dt_loop n K usable off rows m = Some (en, w, cp, m') ->
  en = map (fun k => (off + k, true)) (seq 0 (length rows)) ++ [(off + length rows, false)] /\ off + length rows < usable /\
  (forall x y, In (x, y) cp -> exists k t i a c, nth_error rows k = Some t /\ nth_error t i = Some a /\ av_cell a = Some c /\ find_p m' c = Some x /\ y = PLk n i (off + k)) /\
  (forall d x, find_p m' d = Some x -> find_p m d = Some x \/ (exists k t i a, nth_error rows k = Some t /\ nth_error t i = Some a /\ av_cell a = Some d /\ x = PLk n i (off + k))) /\
  (forall d x, find_p m d = Some x -> find_p m' d = Some x).
Proof.
  induction rows as [|t rows IH]; intros off m en w cp m' E; cbn [dt_loop] in E; (destruct (Nat.ltb_spec off usable); [|discriminate]).
  - injection E as <- _ <- <-. cbn. rewrite Nat.add_0_r. split; auto. split; auto. split; [intros ? ? []|auto].
  - destruct (lk_tuple n 0 off t m) as [[[w1 cp1] m1]|] eqn:E1; [|discriminate]. destruct (dt_loop n K usable (S off) rows m1) as [[[[en2 w2] cp2] m2]|] eqn:E2; [|discriminate]. injection E as <- _ <- <-.
    destruct (IH _ _ _ _ _ _ E2) as (-> & H2 & H3 & H4 & H5). apply lk_tuple_spec in E1 as (G1 & _ & G3 & G4 & _). cbn [length].
    split; [|split; [lia|split; [|split]]].
    + cbn [seq map app]. rewrite Nat.add_0_r. f_equal. replace (off + S (length rows)) with (S off + length rows) by lia. f_equal. rewrite <- seq_shift, map_map. apply map_ext. intros k. f_equal. lia.
    + intros x y Hx. apply in_app_or in Hx as [Hx|Hx].
      * destruct (G3 x y Hx) as (i & a & c & F1 & F2 & F3 & ->). exists 0, t, i, a, c. rewrite Nat.add_0_r. auto 6.
      * destruct (H3 x y Hx) as (k & u & i & a & c & F0 & F1 & F2 & F3 & ->). exists (S k), u, i, a, c. replace (off + S k) with (S off + k) by lia. auto 6.
    + intros d x Hd. apply H4 in Hd as [Hd|(k & u & i & a & F1 & F2 & F3 & ->)].
      * apply G4 in Hd as [Hd|(_ & i & a & F1 & F2 & ->)]; auto. right. exists 0, t, i, a. rewrite Nat.add_0_r. auto.
      * right. exists (S k), u, i, a. replace (off + S k) with (S off + k) by lia. auto.
    + auto.
Qed.
Definition at2 (l : list (list (AV p))) (sg : cell -> Fp) (k j : nat) : Fp := match nth_error l k with Some t => match nth_error t j with Some a => avs sg a | None => F0 end | None => F0 end.
Definition dyn_asg (n toff koff : nat) (rows keys : list (list (AV p))) (sg : cell -> Fp) (A0 : pcell -> Fp) (x : pcell) : Fp :=
  match x with
  | PLk s j r => if Nat.eqb s n then (if Nat.leb toff r then at2 rows sg (r - toff) j else F0)
                 else (if Nat.leb koff r then at2 keys sg ((r - koff) * n + s) j else F0)
  | _ => A0 x
  end.
Theorem dyn_complete n K usable total m toff koff rows keys D (sg : cell -> Fp) (A0 : pcell -> Fp) :
  dyn_run n K usable (dyn0 m) [DTable toff rows; DKeys koff keys] = Some D -> usable <= total ->
  (forall d x, find_p m d = Some x -> A0 x = sg d /\ forall s j r, x <> PLk s j r) ->
  (forall u, In u rows -> length u = K) -> (forall t, In t keys -> length t = K) ->
  (forall t, In t keys -> exists u, In u rows /\ map (avs sg) t = map (avs sg) u) ->
  exists A, dyn_sat n K usable total A D /\ (forall x, (forall s j r, x <> PLk s j r) -> A x = A0 x) /\
    (forall d x, find_p (dp_map D) d = Some x -> A x = sg d).
Proof.
  intros E HT HM HR HK HI. cbn [dyn_run dyn_step] in E. cbn [dyn0 dp_map dp_ken dp_ten dp_wr dp_cp app] in E.
  destruct (dt_loop n K usable toff rows m) as [[[[ten w1] cp1] m1]|] eqn:E1; [|discriminate]. cbn [dp_map dp_ken dp_ten dp_wr dp_cp app] in E.
  destruct (dk_loop n usable 0 koff keys m1) as [[[[ken w2] cp2] m2]|] eqn:E2; [|discriminate]. cbn [dp_map dp_ken dp_ten dp_wr dp_cp app] in E. injection E as <-.
  set (A := dyn_asg n toff koff rows keys sg A0). exists A.
  destruct (dt_spec _ _ _ _ _ _ _ _ _ _ E1) as (-> & T2 & T3 & T4 & T5).
  assert (TV : forall k t i a, nth_error rows k = Some t -> nth_error t i = Some a -> A (PLk n i (toff + k)) = avs sg a).
  { intros k t i a H1 H2. unfold A, dyn_asg. rewrite Nat.eqb_refl. destruct (Nat.leb_spec toff (toff + k)); [|lia]. replace (toff + k - toff) with k by lia. unfold at2. now rewrite H1, H2. }
  assert (KL : keys <> [] -> 0 < n). { intros Hk. destruct keys as [|t keys']; [congruence|]. cbn [dk_loop] in E2. destruct (Nat.leb_spec n 0); [|lia]. destruct (Nat.ltb_spec 0 n); [lia|discriminate]. }
  assert (KS : (forall d x, find_p m1 d = Some x -> find_p m2 d = Some x) /\
     (forall x y, In (x, y) cp2 -> exists k t i a c, nth_error keys k = Some t /\ nth_error t i = Some a /\ av_cell a = Some c /\ find_p m2 c = Some x /\ y = lkpos n (koff * n + k) i) /\
     (forall d x, find_p m2 d = Some x -> find_p m1 d = Some x \/ exists k t i a, nth_error keys k = Some t /\ nth_error t i = Some a /\ av_cell a = Some d /\ x = lkpos n (koff * n + k) i) /\
     ken = map (fun k => ((koff * n + k) mod n, (koff * n + k) / n)) (seq 0 (length keys))).
  { destruct keys as [|t0 keys0] eqn:EK; [cbn in E2; injection E2 as <- _ <- <-; split; auto; split; [intros ? ? []|split; auto]|]. rewrite <- EK in *.
    assert (Hn : 0 < n) by (apply KL; rewrite EK; discriminate). pose proof (dk_en n usable keys Hn 0 koff m1 _ _ _ _ ltac:(lia) E2) as [-> _].
    apply dk_lk in E2. rewrite lk_loop_idx in E2 by lia. rewrite Nat.add_0_r in *. apply lk_idx_spec in E2 as (H1 & _ & H3 & H4). split; auto. split; [|split]; auto.
    intros d x Hd. apply H4 in Hd as [Hd|(_ & H)]; auto. }
  destruct KS as (K1 & K2 & K3 & ->).
  assert (KP : forall k i, 0 < n -> A (lkpos n (koff * n + k) i) = at2 keys sg k i).
  { intros k i Hn. unfold A, dyn_asg, lkpos. pose proof (Nat.mod_upper_bound (koff * n + k) n ltac:(lia)). destruct (Nat.eqb_spec ((koff * n + k) mod n) n); [lia|].
    rewrite (Nat.add_comm (koff * n)), Nat.mod_add, Nat.div_add by lia. destruct (Nat.leb_spec koff (k / n + koff)); [|lia]. f_equal. replace (k / n + koff - koff) with (k / n) by lia. rewrite (Nat.div_mod k n) at 3 by lia. lia. }
  assert (KV : forall k t i a, nth_error keys k = Some t -> nth_error t i = Some a -> A (lkpos n (koff * n + k) i) = avs sg a).
  { intros k t i a H1 H2. rewrite KP. { unfold at2. now rewrite H1, H2. } apply KL. intros ->. destruct k; discriminate. }
  assert (MF1 : forall d x, find_p m1 d = Some x -> A x = sg d).
  { intros d x Hd. apply T4 in Hd as [Hd|(k & t & i & a & H1 & H2 & H3 & ->)].
    - destruct (HM d x Hd) as [H1 H2]. rewrite <- H1. unfold A, dyn_asg. destruct x; auto. exfalso. eapply H2; eauto.
    - rewrite (TV k t i a H1 H2). unfold avs. now rewrite H3. }
  assert (MF : forall d x, find_p m2 d = Some x -> A x = sg d).
  { intros d x Hd. apply K3 in Hd as [Hd|(k & t & i & a & H1 & H2 & H3 & ->)]; auto. rewrite (KV k t i a H1 H2). unfold avs. now rewrite H3. }
  split; [|split]; auto.
  2:{ intros x Hx. unfold A, dyn_asg. destruct x; auto. exfalso. eapply Hx; eauto. }
  split; cbn [dp_cp dp_ken dp_ten].
  - intros x y Hxy. apply in_app_or in Hxy as [Hxy|Hxy].
    + destruct (T3 x y Hxy) as (k & t & i & a & d & H1 & H2 & H3 & H4 & ->). rewrite (TV k t i a H1 H2), (MF d x (K1 _ _ H4)). unfold avs. now rewrite H3.
    + destruct (K2 x y Hxy) as (k & t & i & a & d & H1 & H2 & H3 & H4 & ->). rewrite (KV k t i a H1 H2), (MF d x H4). unfold avs. now rewrite H3.
  - set (D := mkDphys _ _ _ _ _).
    assert (TE : forall k, k < length rows -> table_enabled D (toff + k) = true).
    { intros k Hk. unfold table_enabled, D. cbn [dp_ten]. rewrite rev_app_distr. cbn [rev app find fst]. destruct (Nat.eqb_spec (toff + length rows) (toff + k)); [lia|].
      destruct (find _ _) as [[r b]|] eqn:Ef.
      - apply find_some in Ef as [Ef _]. apply in_rev, in_map_iff in Ef as (k' & Ek & _). injection Ek as _ <-. auto.
      - exfalso. assert (Hin : In (toff + k, true) (rev (map (fun k => (toff + k, true)) (seq 0 (length rows))))). { rewrite <- in_rev. apply in_map_iff. exists k. split; auto. apply in_seq. lia. }
        apply (find_none _ _ Ef) in Hin. cbn in Hin. rewrite Nat.eqb_refl in Hin. discriminate. }
    assert (TD : table_enabled D (toff + length rows) = false). { unfold table_enabled, D. cbn [dp_ten]. rewrite rev_app_distr. cbn [rev app find fst]. now rewrite Nat.eqb_refl. }
    intros s r Hs Hr. destruct (key_enabled D s r) eqn:EE.
    + unfold key_enabled, D in EE. cbn [dp_ken] in EE. apply existsb_exists in EE as ([s' r'] & Hin & Heq). cbn in Heq. apply andb_prop in Heq as [Q1 Q2]. apply Nat.eqb_eq in Q1, Q2. subst.
      apply in_map_iff in Hin as (k & Ek & Hk). apply in_seq in Hk. destruct (nth_error keys k) as [t|] eqn:Et; [|apply nth_error_None in Et; lia].
      destruct (HI t (nth_error_In _ _ Et)) as (u & Hu & Hmu). apply In_nth_error in Hu as (ku & Hu). assert (ku < length rows) by (apply nth_error_Some; congruence).
      exists (toff + ku). split; [lia|]. split; [now apply TE|]. intros j Hj.
      pose proof (HR u (nth_error_In _ _ Hu)) as HRu. pose proof (HK t (nth_error_In _ _ Et)) as HKt.
      destruct (nth_error t j) as [a|] eqn:Ea; [|apply nth_error_None in Ea; lia]. destruct (nth_error u j) as [b|] eqn:Eb; [|apply nth_error_None in Eb; lia].
      rewrite (TV ku u j b Hu Eb). injection Ek as <- <-. change (PLk ((koff * n + k) mod n) j ((koff * n + k) / n)) with (lkpos n (koff * n + k) j). rewrite (KV k t j a Et Ea).
      apply (f_equal (fun l => nth_error l j)) in Hmu. rewrite !nth_error_map, Ea, Eb in Hmu. cbn in Hmu. congruence.
    + exists (toff + length rows). split; [lia|]. split; auto. intros j Hj.
      assert (EZ : A (PLk n j (toff + length rows)) = F0).
      { unfold A, dyn_asg. rewrite Nat.eqb_refl. destruct (Nat.leb_spec toff (toff + length rows)); [|lia]. replace (toff + length rows - toff) with (length rows) by lia. unfold at2.
        rewrite (proj2 (nth_error_None rows (length rows))) by lia. auto. }
      rewrite EZ. unfold A, dyn_asg. destruct (Nat.eqb_spec s n); [lia|]. destruct (Nat.leb_spec koff r); auto. unfold at2.
      destruct (nth_error keys ((r - koff) * n + s)) as [t|] eqn:Et; auto. exfalso.
      assert (Hlt : (r - koff) * n + s < length keys) by (apply nth_error_Some; congruence).
      assert (HX : key_enabled D s r = true); [|congruence]. unfold key_enabled, D. cbn [dp_ken]. apply existsb_exists. exists (s, r). cbn. rewrite !Nat.eqb_refl. split; auto.
      apply in_map_iff. exists ((r - koff) * n + s). split; [|apply in_seq; split; [apply Nat.le_0_l|exact Hlt]]. replace (koff * n + ((r - koff) * n + s)) with (r * n + s) by (rewrite Nat.add_assoc, <- Nat.mul_add_distr_r; f_equal; f_equal; lia).
      destruct (div_mod_at n s r Hs) as [-> ->]. reflexivity.
Qed.
End D.
