(** Completeness of the remaining inner-product style functions. *)
From Coq Require Import ZArith Lia List Bool Znumtheory Ring.
From Verif Require Import Field Context ContextProofs Spec Logic Utils Gate GateProofs ChainProofs IPProofs Derived.
Import ListNotations.
Local Open Scope Z_scope.
Local Open Scope monad_scope.

Section IPComp.
Context {p : positive}.
Notation Fp := (F p).
Variable lb : nat.
Notation comp := (comp lb).
Implicit Types (a b : list (qcell p)).
Add Ring Fring : (F_ring p) (morphism (F_morph p), constants [Fcst]).

Lemma last_nth_F (xs : list Fp) : last xs F0 = nth (length xs - 1) xs F0.
Proof.
  destruct xs as [|x xs _] using rev_ind; auto. rewrite last_last, app_length. cbn [length].
  rewrite app_nth2 by lia. replace (length xs + 1 - 1 - length xs)%nat with O by lia. reflexivity.
Qed.

Lemma inner_product_left_last_comp a b xs ys : Forall2 qh a xs -> Forall2 qh b ys -> length a = length b -> a <> [] ->
  comp (qoks a b) (inner_product_left_last a b)
    (fun o => hv (fst o) (dot xs ys) /\ hv (snd o) (last xs F0))
    (fun rho o => av_ok rho (fst o) /\ av_ok rho (snd o)).
Proof.
  intros HA HB HL HN s W.
  destruct (ip_core_comp lb a b xs ys s W HA HB HL) as (s' & E1 & W1 & X1 & L1 & Z1 & V1 & V2 & S1).
  pose proof (Forall2_len _ _ _ HA) as Lx. pose proof (Forall2_len _ _ _ HB) as Ly.
  assert (Hn : (0 < length a)%nat) by (destruct a; [contradiction|cbn; lia]).
  set (one := starts_with_one b) in *.
  assert (HG : exists x, ctx_get (Z.of_nat (alen s + ip_pos one (length a - 1))) s' = Some (x, s')).
  { pose proof (V1 (length a - 1)%nat ltac:(lia)) as E. unfold ctx_get.
    destruct (Z.ltb_spec (Z.of_nat (alen s + ip_pos one (length a - 1))) 0); [lia|].
    destruct (Z.ltb_spec (Z.of_nat (alen s + ip_pos one (length a - 1))) 0); [lia|].
    rewrite Nat2Z.id, E. eauto. }
  destruct HG as [al E2]. destruct (last_total s') as [x E3]; [lia|].
  exists (x, al), s'. split.
  { unfold inner_product_left_last. unfold bind at 1, ctx_len. unfold bind at 1. rewrite E1. unfold bind at 1.
    rewrite <- ip_left_last_pos in E2 by lia. destruct one.
    - destruct (Nat.eqb_spec (length a) 1).
      + rewrite E2. unfold bind. rewrite E3. reflexivity.
      + replace (Nat.leb 2 (length a)) with true by (symmetry; apply Nat.leb_le; lia). unfold bind, assert_, ret. rewrite E2, E3. reflexivity.
    - replace (Nat.leb 1 (length a)) with true by (symmetry; apply Nat.leb_le; lia). unfold bind, assert_, ret. rewrite E2, E3. reflexivity. }
  do 2 (split; auto). apply last_at in E3 as (_ & A3); auto. apply get_at in E2 as (_ & A2); auto. cbn [fst snd].
  split; [split|].
  - eapply at_off_hv; [exact A3|].
    replace (alen s' - 1)%nat with (alen s + 3 * ip_gates one (length a))%nat by lia.
    rewrite V2 by lia. do 2 f_equal. apply ip_last_dot; auto; lia.
  - eapply at_off_hv; [exact A2|]. rewrite V1 by lia. rewrite last_nth_F, <- Lx. reflexivity.
  - intros rho HAg HS [Ha Hb]. split; auto. split; eapply av_in_ok; eauto; eapply at_off_in; eauto.
Qed.

Lemma gets_total (s s' : st p) (f : nat -> nat) n (vs : list Fp) : wf s' -> length vs = n ->
  (forall i, (i < n)%nat -> nth_error (advice s') (alen s + f i) = Some (ATriv (nth i vs F0))) ->
  exists l, mapM (fun i => ctx_get (Z.of_nat i)) (map (fun i => (alen s + f i)%nat) (seq 0 n)) s' = Some (l, s') /\
    Forall2 hv l vs /\ forall rho, Agree rho s' -> Forall (av_ok rho) l.
Proof.
  intros W L V.
  destruct (mapM_get_total (map (fun i => (alen s + f i)%nat) (seq 0 n)) s' W) as [l E2].
  { rewrite Forall_forall. intros i Hi. apply in_map_iff in Hi as (j & <- & Hj). apply in_seq in Hj.
    assert (HS : nth_error (advice s') (alen s + f j) <> None) by (rewrite V by lia; discriminate).
    apply nth_error_Some in HS. unfold alen at 2. lia. }
  exists l. split; auto. apply mapM_get in E2 as (_ & F2); auto. split.
  - eapply gets_hv; eauto.
  - intros rho HA. clear - F2 HA. induction F2; constructor; auto. eapply av_in_ok; eauto. eapply at_off_in; eauto.
Qed.

Lemma nth_map_seq1 (g : nat -> Fp) n i : (i < n)%nat -> nth i (map g (seq 1 n)) F0 = g (S i).
Proof.
  intros. apply nth_error_nth. rewrite nth_error_map, (nth_error_nth' _ O) by now rewrite seq_length. now rewrite seq_nth.
Qed.

Lemma inner_product_with_sums_comp a b xs ys : Forall2 qh a xs -> Forall2 qh b ys -> length a = length b ->
  comp (qoks a b) (inner_product_with_sums a b)
    (fun o => Forall2 hv o (run_dots xs ys)) (fun rho o => Forall (av_ok rho) o).
Proof.
  intros HA HB HL s W.
  destruct (ip_core_comp lb a b xs ys s W HA HB HL) as (s' & E1 & W1 & X1 & L1 & Z1 & V1 & V2 & S1).
  pose proof (Forall2_len _ _ _ HA) as Lx. pose proof (Forall2_len _ _ _ HB) as Ly.
  set (one := starts_with_one b) in *.
  set (f := fun i => if one then (3 * i)%nat else (3 * S i)%nat).
  assert (Hidx : (if one then map (fun i => (alen s + 3 * i)%nat) (seq 0 (S (ip_gates one (length a))))
       else tl (map (fun i => (alen s + 3 * i)%nat) (seq 0 (S (ip_gates one (length a)))))) =
       map (fun i => (alen s + f i)%nat) (seq 0 (length a))).
  { unfold f. destruct one; cbn [ip_gates].
    - specialize (Z1 eq_refl). replace (S (length a - 1)) with (length a) by lia. reflexivity.
    - cbn [seq map tl]. rewrite <- seq_shift, map_map. reflexivity. }
  destruct (gets_total s s' f (length a) (run_dots xs ys)) as (l & E2 & H1 & H2); auto.
  { unfold run_dots. rewrite map_length, seq_length. auto. }
  { intros i Hi. unfold run_dots. rewrite nth_map_seq1 by lia. unfold f. destruct one; cbn [ip_gates] in V2; rewrite V2 by lia; reflexivity. }
  exists l, s'. split.
  { unfold inner_product_with_sums. unfold bind at 1, ctx_len. unfold bind at 1. rewrite E1. unfold bind at 1.
    rewrite L1. replace (alen s + S (3 * ip_gates one (length a)) - alen s + 2)%nat with (3 * S (ip_gates one (length a)))%nat by lia.
    rewrite Nat.mul_comm, Nat.div_mul by lia. rewrite Hidx. exact E2. }
  do 3 (split; auto). intros rho HAg HS [Ha Hb]. split; auto.
Qed.

Lemma partial_sums_comp (l : list (qcell p)) xs : Forall2 qh l xs ->
  comp (fun rho => Forall (q_ok rho) l) (partial_sums l)
    (fun o => Forall2 hv o (match xs with [] => [F0] | _ => prefix_sums xs end)) (fun rho o => Forall (av_ok rho) o).
Proof.
  intros HF. unfold partial_sums. destruct l as [|a [|b l]].
  - inversion HF; subst. eapply comp_bind; [apply (comp_load_zero lb (fun _ => True))|intros ? _; exact I|]. intros z Hz.
    apply comp_ret; [constructor; auto|]. intros rho [_ H]. constructor; auto.
  - inversion HF as [|? x ? ? Hx HF']; subst. inversion HF'; subst.
    eapply comp_bind; [apply (comp_region_last lb [a] [] a)|..]; cbn; auto.
    + repeat constructor; eauto using qh_cell.
    + intros ? [].
    + intros ? [].
    + intros o [H1 H2]. apply comp_ret.
      * constructor; auto. split; auto. rewrite H1, (qh_adv _ _ Hx). f_equal. ring.
      * intros rho [_ H]. auto.
  - inversion HF as [|? x ? xs' Hx HF']; subst.
    eapply comp_lift_bind; [exact (qh_val _ _ Hx)|].
    destruct (sum_cells_honest (b :: l) x xs' HF') as (tr & E1 & E2 & E3 & E4).
    eapply comp_lift_bind; [exact E1|].
    assert (HL : length (b :: l) = length tr) by (rewrite <- E3, map_length; reflexivity).
    rewrite HL. intros s W.
    destruct (chain_run lb _ _ _ _ a s E2 Hx W) as (s' & R1 & W1 & X1 & A1 & V1 & S1).
    destruct (hchain_vals _ _ _ _ E2 a Hx) as (L1 & L2 & V3 & V4 & _ & _).
    assert (LL : length (a :: flat3 tr) = S (3 * length tr)) by (cbn [length]; rewrite flat3_length; lia).
    destruct (gets_total s s' (fun i => (3 * i)%nat) (S (length tr)) (prefix_sums (x :: xs'))) as (o & G1 & G2 & G3); auto.
    { unfold prefix_sums. rewrite map_length, seq_length. cbn [length]. lia. }
    { intros i Hi. unfold prefix_sums. rewrite nth_map_seq1 by (cbn [length]; lia). rewrite V1 by lia. do 2 f_equal.
      rewrite V3 by lia. cbn [firstn fsum]. f_equal. apply dot_ones_firstn; [|rewrite map_length; lia].
      clear. induction xs'; cbn; constructor; auto. }
    exists o, s'. split.
    { unfold bind. rewrite R1. rewrite (rev_seq_gets (length tr) (alen s)); [exact G1|].
      unfold alen. rewrite A1, app_length, map_length, LL. reflexivity. }
    do 3 (split; auto). intros rho HAg HS H. split; auto. inversion H; subst. apply S1; auto; [rewrite E3; auto|].
    rewrite E4. clear. induction (b :: l); cbn; constructor; auto; exact I.
Qed.

Lemma accumulated_product_comp a b xs (b0 : Fp) ys : Forall2 qh a xs -> Forall2 qh b (b0 :: ys) -> length b = S (length a) ->
  comp (qoks a b) (accumulated_product a b)
    (fun o => Forall2 hv o (b0 :: horner b0 (combine xs ys))) (fun rho o => Forall (av_ok rho) o).
Proof.
  intros HA HB HL. unfold accumulated_product. inversion HB as [|q0 ? b' ? Hq HB']; subst. cbn [length] in HL.
  eapply comp_bind; [apply (comp_region_last lb [q0] [] q0)|..]; cbn; auto.
  - repeat constructor; eauto using qh_cell.
  - intros ? [].
  - intros ? [].
  - intros rho [_ H]. inversion H; auto.
  - intros x [H1 H2]. assert (Hx : hv x b0) by (split; auto; rewrite H1; now apply qh_adv).
    eapply comp_bind; [apply (acc_prod_comp lb (combine a b') x b0 (combine xs ys) Hx)|..].
    + clear -HA HB'. revert b' ys HB'. induction HA as [|q v a xs Hq HA IH]; intros b ys HB; cbn [combine]; [constructor|].
      inversion HB; subst; cbn [combine]; constructor; auto.
    + intros rho [[Ha Hb] Hx']. split; auto. inversion Hb; subst. clear -Ha H4.
      revert b' H4. induction Ha as [|q a Hq Ha IH]; intros b Hb; cbn [combine]; [constructor|].
      inversion Hb; subst; cbn [combine]; constructor; auto.
    + intros l Hl. apply comp_ret; [constructor; auto|]. intros rho [[_ H3] H4]. constructor; auto.
Qed.

End IPComp.
