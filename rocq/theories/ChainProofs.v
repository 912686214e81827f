(** Vertical chains  | start | a0 | b0 | s0 | a1 | b1 | s1 | ...  with a gate every three rows:
    the layout shared by sum, inner_product, select_by_indicator. *)
From Coq Require Import ZArith Lia List Bool Znumtheory Ring.
From Verif Require Import Field Context ContextProofs Spec Logic Utils Gate GateProofs.
Import ListNotations.
Local Open Scope Z_scope.

Section Chain.
Context {p : positive}.
Notation Fp := (F p).
Variable lb : nat.
Notation sound := (sound lb).
Notation comp := (comp lb).
Implicit Types (q : qcell p).
Add Ring Fring : (F_ring p) (morphism (F_morph p), constants [Fcst]).

Definition flat3 (tr : list (qcell p * qcell p * Fp)) : list (qcell p) :=
  flat_map (fun t => [fst (fst t); snd (fst t); Witness (snd t)]) tr.

Lemma flat3_length tr : length (flat3 tr) = (3 * length tr)%nat.
Proof. induction tr; cbn [flat3 flat_map]; auto. rewrite app_length. fold (flat3 tr). rewrite IHtr. cbn [length]. lia. Qed.

Lemma in_offs3 k n : In (Z.of_nat k) (offs3 n) <-> exists i, (i < n)%nat /\ k = (3 * i)%nat.
Proof.
  unfold offs3. rewrite in_map_iff. split.
  - intros (i & E & Hi). apply in_seq in Hi. exists i. split; lia.
  - intros (i & Hi & ->). exists i. split; [lia|]. apply in_seq. lia.
Qed.
Lemma offs3_nonneg n : Forall (fun o => 0 <= o) (offs3 n).
Proof. rewrite Forall_forall. unfold offs3. intros o H. apply in_map_iff in H as (i & <- & _). lia. Qed.
Lemma offs3_range n o : In o (offs3 n) -> 0 <= o /\ o + 3 < Z.of_nat (S (3 * n)).
Proof. unfold offs3. intros H. apply in_map_iff in H as (i & <- & Hi). apply in_seq in Hi. lia. Qed.

(** meaning of a chain *)
Lemma chain_sem sg tr : forall start v,
  region_sem sg v (start :: flat3 tr) (offs3 (length tr)) ->
  exists xs ys, qsem sg start (v O) /\
    Forall2 (qsem sg) (map (fun t => fst (fst t)) tr) xs /\
    Forall2 (qsem sg) (map (fun t => snd (fst t)) tr) ys /\
    (forall i x, nth_error xs i = Some x -> v (3 * i + 1)%nat = x) /\
    (forall k, (k <= length tr)%nat -> v (3 * k)%nat = (v O + dot (firstn k xs) (firstn k ys))%F).
Proof.
  induction tr as [|[[a b] w] tr IH]; intros start v [Hq Hg].
  - exists [], []. split; [apply (Hq O); reflexivity|]. do 2 (split; [constructor|]). split.
    + intros [|i] x H; discriminate.
    + intros [|k] Hk; cbn [length] in Hk; [|lia]. cbn. ring.
  - cbn [flat3 flat_map fst snd app] in Hq. fold (flat3 tr) in Hq.
    assert (HR : region_sem sg (fun k => v (k + 3)%nat) (Witness w :: flat3 tr) (offs3 (length tr))).
    { split.
      - intros i q Hn. rewrite Nat.add_comm. apply (Hq (3 + i)%nat q). exact Hn.
      - intros k Hk. apply in_offs3 in Hk as (i & Hi & ->).
        specialize (Hg (3 * S i)%nat). cbn [length] in Hg.
        replace (3 * i + 3)%nat with (3 * S i)%nat by lia.
        replace (3 * i + 1 + 3)%nat with (3 * S i + 1)%nat by lia.
        replace (3 * i + 2 + 3)%nat with (3 * S i + 2)%nat by lia.
        replace (3 * i + 3 + 3)%nat with (3 * S i + 3)%nat by lia.
        apply Hg. apply in_offs3. exists (S i). split; lia. }
    destruct (IH _ _ HR) as (xs & ys & _ & Fx & Fy & Vx & Vs).
    exists (v 1%nat :: xs), (v 2%nat :: ys).
    split; [apply (Hq O); reflexivity|].
    split; [constructor; [apply (Hq 1%nat); reflexivity|exact Fx]|].
    split; [constructor; [apply (Hq 2%nat); reflexivity|exact Fy]|].
    split.
    + intros [|i] x H; cbn in H; [injection H as <-; reflexivity|].
      rewrite <- (Vx i x H). f_equal. lia.
    + intros [|k] Hk; [cbn; ring|]. cbn [firstn dot]. cbn [length] in Hk.
      replace (3 * S k)%nat with (3 * k + 3)%nat by lia. rewrite (Vs k) by lia. cbn [Nat.add].
      specialize (Hg O). cbn [Nat.add] in Hg. rewrite <- Hg; [ring|].
      apply in_offs3. exists O. cbn [length]. split; lia.
Qed.

(** honest chains: the witness column is the running inner product *)
Inductive hchain : Fp -> list (qcell p * qcell p * Fp) -> list Fp -> list Fp -> Prop :=
| hc_nil s : hchain s [] [] []
| hc_cons s a b x y tr xs ys : qh a x -> qh b y -> hchain (s + x * y)%F tr xs ys ->
    hchain s ((a, b, (s + x * y)%F) :: tr) (x :: xs) (y :: ys).

Lemma hchain_vals s tr xs ys : hchain s tr xs ys -> forall start, qh start s ->
  let l := start :: flat3 tr in
  length xs = length tr /\ length ys = length tr /\
  (forall k, (k <= length tr)%nat -> qvals l (3 * k) = (s + dot (firstn k xs) (firstn k ys))%F) /\
  (forall i, (i < length tr)%nat -> qvals l (3 * i + 1) = nth i xs F0 /\ qvals l (3 * i + 2) = nth i ys F0) /\
  gates_ok (qvals l) (offs3 (length tr)) /\ (q_cell_ok start -> Forall q_cell_ok l).
Proof.
  induction 1 as [s|s a b x y tr xs ys Ha Hb HC IH]; intros start Hs l.
  - split; auto. split; auto. split; [|split; [|split]].
    + intros k Hk. cbn [length] in Hk. assert (k = O) by lia. subst. unfold l, qvals. cbn.
      rewrite (qh_adv _ _ Hs). cbn. ring.
    + cbn [length]. intros; lia.
    + intros k Hk. destruct Hk.
    + intros; repeat constructor; auto.
  - destruct (IH (Witness (s + x * y)%F) (qh_witness _)) as (L1 & L2 & V1 & V2 & G & K). clear IH.
    set (l' := Witness (s + x * y)%F :: flat3 tr) in *.
    assert (Hl : l = start :: a :: b :: l') by reflexivity.
    assert (Hsh : forall k, qvals l (S (S (S k))) = qvals l' k) by (intros; rewrite Hl; reflexivity).
    split; [cbn; lia|]. split; [cbn; lia|].
    assert (H0 : qvals l 0 = s) by (rewrite Hl; unfold qvals; cbn; rewrite (qh_adv _ _ Hs); reflexivity).
    assert (H1 : qvals l 1 = x) by (rewrite Hl; unfold qvals; cbn; rewrite (qh_adv _ _ Ha); reflexivity).
    assert (H2 : qvals l 2 = y) by (rewrite Hl; unfold qvals; cbn; rewrite (qh_adv _ _ Hb); reflexivity).
    split; [|split; [|split]].
    + intros [|k] Hk; [cbn [Nat.mul Nat.add firstn dot]; rewrite H0; ring|]. cbn [firstn dot length] in *.
      replace (3 * S k)%nat with (S (S (S (3 * k)))) by lia. rewrite Hsh, V1 by lia. ring.
    + intros [|i] Hi; [cbn; split; auto|]. cbn [nth length] in *.
      replace (3 * S i + 1)%nat with (S (S (S (3 * i + 1)))) by lia.
      replace (3 * S i + 2)%nat with (S (S (S (3 * i + 2)))) by lia. rewrite !Hsh. apply V2. lia.
    + intros k Hk. apply in_offs3 in Hk as (i & Hi & ->). destruct i as [|i].
      * cbn [Nat.mul Nat.add]. rewrite H0, H1, H2, Hsh. unfold l', qvals. reflexivity.
      * replace (3 * S i)%nat with (S (S (S (3 * i)))) by lia. cbn [Nat.add]. rewrite !Hsh.
        apply (G (3 * i)%nat). apply in_offs3. exists i. cbn [length] in Hi. split; lia.
    + intros Hst. rewrite Hl. do 3 (apply Forall_cons; [eauto using qh_cell|]). apply K. exact I.
Qed.

(** semantic honesty of the inputs gives that of the whole chain *)
Lemma chain_qok rho start tr : q_ok rho start ->
  Forall (q_ok rho) (map (fun t => fst (fst t)) tr) -> Forall (q_ok rho) (map (fun t => snd (fst t)) tr) ->
  Forall (q_ok rho) (start :: flat3 tr).
Proof.
  intros Hs Ha Hb. constructor; auto. induction tr as [|[[a b] w] tr IH]; cbn; [constructor|].
  inversion Ha; inversion Hb; subst. constructor; auto. constructor; auto. constructor; [exact I|]. apply IH; auto.
Qed.

(** ** reading back cells *)
Lemma mapM_get (idx : list nat) : forall (s : st p) l s', wf s ->
  mapM (fun i => ctx_get (Z.of_nat i)) idx s = Some (l, s') ->
  s' = s /\ Forall2 (fun i a => av_cell a = Some (cl s i) /\ nth_error (advice s) i = Some (av_val a)) idx l.
Proof.
  induction idx as [|i idx IH]; intros s l s' W H; cbn [mapM] in H.
  - injection H as <- <-. auto.
  - apply bind_inv in H as (a & s1 & H1 & H). apply ctx_get_abs in H1 as (-> & C1 & V1 & _); auto.
    apply bind_inv in H as (l1 & s2 & H2 & H). apply IH in H2 as (-> & F2); auto.
    injection H as <- <-. auto.
Qed.
Lemma mapM_get_total (idx : list nat) : forall (s : st p), wf s ->
  Forall (fun i => (i < alen s)%nat) idx ->
  exists l, mapM (fun i => ctx_get (Z.of_nat i)) idx s = Some (l, s).
Proof.
  induction idx as [|i idx IH]; intros s W HF; cbn [mapM].
  - exists []. reflexivity.
  - inversion HF; subst. unfold bind. destruct (ctx_get_abs_total s i H1) as [a ->].
    destruct (IH s W H2) as [l ->]. eexists; reflexivity.
Qed.
Lemma mapM_ext {A B} (f g : A -> M p B) l s : (forall x, In x l -> forall s, f x s = g x s) -> mapM f l s = mapM g l s.
Proof.
  revert s. induction l as [|x l IH]; intros s H; [reflexivity|]. cbn [mapM]. unfold bind.
  rewrite (H x (or_introl eq_refl)). destruct (g x s) as [[y s1]|]; [|reflexivity].
  rewrite IH; [reflexivity|]. intros; apply H; now right.
Qed.
Lemma mapM_map {A B C} (f : B -> M p C) (g : A -> B) l s : mapM (fun x => f (g x)) l s = mapM f (map g l) s.
Proof.
  revert s. induction l as [|x l IH]; intros s; [reflexivity|]. cbn [mapM map]. unfold bind.
  destruct (f (g x) s) as [[y s1]|]; [|reflexivity]. now rewrite IH.
Qed.

Lemma sum_cells_flat l : forall s0 cells, sum_cells s0 l = Some cells ->
  exists tr, cells = flat3 tr /\ map (fun t => fst (fst t)) tr = l /\
    map (fun t => snd (fst t)) tr = map (fun _ => Constant F1) l.
Proof.
  induction l as [|q l IH]; intros s0 cells H; cbn in H.
  - injection H as <-. exists []. auto.
  - destruct (q_value q) as [v|]; [|discriminate].
    destruct (sum_cells (s0 + v)%F l) as [c|] eqn:E; [|discriminate]. injection H as <-.
    apply IH in E as (tr & -> & E1 & E2). exists ((q, Constant F1, (s0 + v)%F) :: tr).
    cbn. rewrite E1, E2. auto.
Qed.
Lemma sum_cells_honest l : forall s0 xs, Forall2 qh l xs ->
  exists tr, sum_cells s0 l = Some (flat3 tr) /\ hchain s0 tr xs (map (fun _ => F1) xs) /\
    map (fun t => fst (fst t)) tr = l /\ map (fun t => snd (fst t)) tr = map (fun _ => Constant F1) l.
Proof.
  induction l as [|q l IH]; intros s0 xs H; inversion H; subst.
  - exists []. repeat split; auto. constructor.
  - destruct (IH (s0 + y)%F l' H4) as (tr & E1 & E2 & E3 & E4).
    exists ((q, Constant F1, (s0 + y * 1)%F) :: tr). cbn [sum_cells map flat3 flat_map fst snd app].
    rewrite (qh_val _ _ H2). replace (s0 + y * 1)%F with (s0 + y)%F by ring. rewrite E1. split; [reflexivity|].
    split; [|rewrite E3, E4; auto].
    replace (s0 + y)%F with (s0 + y * 1)%F at 1 by ring. constructor; auto using qh_const.
    replace (s0 + y * 1)%F with (s0 + y)%F by ring. exact E2.
Qed.

Lemma dot_ones (xs ys : list Fp) : Forall (fun y => y = F1) ys -> length ys = length xs -> dot xs ys = fsum xs.
Proof.
  revert ys. induction xs as [|x xs IH]; intros [|y ys] HF HL; try discriminate; auto.
  inversion HF; subst. cbn. rewrite IH; auto. ring.
Qed.

Lemma ip_cells_flat ab : forall s0 cells, ip_cells s0 ab = Some cells ->
  exists tr, cells = flat3 tr /\ map fst tr = ab.
Proof.
  induction ab as [|[a b] l IH]; intros s0 cells H; cbn in H.
  - injection H as <-. exists []. auto.
  - destruct (q_value a) as [x|]; [|discriminate]. destruct (q_value b) as [y|]; [|discriminate].
    destruct (ip_cells (s0 + x * y)%F l) as [c|] eqn:E; [|discriminate]. injection H as <-.
    apply IH in E as (tr & -> & E1). exists ((a, b, (s0 + x * y)%F) :: tr).
    cbn. rewrite E1. auto.
Qed.
Lemma ip_cells_honest a : forall b s0 xs ys, Forall2 qh a xs -> Forall2 qh b ys -> length a = length b ->
  exists tr, ip_cells s0 (combine a b) = Some (flat3 tr) /\ hchain s0 tr xs ys /\ map fst tr = combine a b.
Proof.
  induction a as [|q a IH]; intros b s0 xs ys HA HB HL; destruct b as [|r b]; try discriminate.
  - inversion HA; inversion HB; subst. exists []. repeat split; auto. constructor.
  - inversion HA as [|? x ? xs' Hx HA']; inversion HB as [|? y ? ys' Hy HB']; subst.
    destruct (IH b (s0 + x * y)%F xs' ys' HA' HB') as (tr & E1 & E2 & E3); [cbn in HL; lia|].
    exists ((q, r, (s0 + x * y)%F) :: tr). cbn [ip_cells combine].
    rewrite (qh_val _ _ Hx), (qh_val _ _ Hy), E1. split; [reflexivity|]. split; [constructor; auto|].
    cbn. now rewrite E3.
Qed.
Lemma map_fst_combine {A B} (a : list A) (b : list B) : length a = length b -> map fst (combine a b) = a.
Proof. revert b. induction a as [|x a IH]; intros [|y b] H; try discriminate; cbn; auto. rewrite IH; auto. Qed.
Lemma map_snd_combine {A B} (a : list A) (b : list B) : length a = length b -> map snd (combine a b) = b.
Proof. revert b. induction a as [|x a IH]; intros [|y b] H; try discriminate; cbn; auto. rewrite IH; auto. Qed.

Lemma qsem_consts {A} sg (c : Fp) (l : list A) ys :
  Forall2 (qsem sg) (map (fun _ => Constant c) l) ys -> Forall (fun y => y = c) ys.
Proof.
  revert ys. induction l as [|x l IH]; intros ys H; inversion H; subst; constructor; auto.
Qed.
(** ** sum *)
Lemma sum_sound (l : list (qcell p)) : sound (sum l) (fun _ => True)
  (fun sg o => exists xs, Forall2 (qsem sg) l xs /\ avs sg o = fsum xs).
Proof.
  unfold sum. destruct l as [|a [|b l]].
  - eapply sound_weaken; [apply sound_load_zero|auto|]. intros sg o _ H. exists []. auto.
  - eapply sound_weaken; [apply sound_region_last; [constructor|cbn; lia]|auto|].
    intros sg o _ (v & [Hq _] & Ho). exists [v O]. split; [constructor; auto; apply (Hq O); reflexivity|].
    rewrite Ho. cbn. ring.
  - apply sound_lift_bind; intros s0 E0. apply sound_lift_bind; intros cells E1.
    apply sum_cells_flat in E1 as (tr & -> & E2 & E3).
    assert (HL : length (b :: l) = length tr) by (rewrite <- E2, map_length; reflexivity).
    rewrite HL. eapply sound_weaken; [apply sound_region_last; [apply offs3_nonneg|cbn; lia]|auto|].
    intros sg o _ (v & HR & Ho). apply chain_sem in HR as (xs & ys & Q0 & Fx & Fy & _ & Vs).
    cbn [length] in Ho. rewrite flat3_length in Ho. rewrite E2 in Fx. rewrite E3 in Fy.
    pose proof (Forall2_len _ _ _ Fx) as Lx. pose proof (Forall2_len _ _ _ Fy) as Ly. rewrite map_length in Ly.
    exists (v O :: xs). split; [constructor; auto|].
    rewrite Ho. replace (S (3 * length tr) - 1)%nat with (3 * length tr)%nat by lia. rewrite Vs by lia.
    rewrite !firstn_all2 by lia. cbn [fsum]. f_equal. apply dot_ones; [|lia].
    eapply qsem_consts; eauto.
Qed.

Lemma sum_comp (l : list (qcell p)) xs : Forall2 qh l xs ->
  comp (fun rho => Forall (q_ok rho) l) (sum l) (fun o => hv o (fsum xs)) (fun rho o => av_ok rho o).
Proof.
  intros HF. unfold sum. destruct l as [|a [|b l]].
  - inversion HF; subst. eapply comp_weaken; [apply (comp_load_zero lb (fun _ => True))|exact (fun _ _ => I)|intros o H; exact H|auto].
  - inversion HF as [|? x ? ? Hx HF']; subst. inversion HF'; subst.
    eapply comp_weaken; [apply (comp_region_last lb [a] [] a)|..]; cbn; auto.
    + repeat constructor; eauto using qh_cell.
    + intros ? [].
    + intros ? [].
    + intros o [H1 H2]. split; auto. rewrite H1, (qh_adv _ _ Hx). f_equal. ring.
  - inversion HF as [|? x ? xs' Hx HF']; subst.
    eapply comp_lift_bind; [exact (qh_val _ _ Hx)|].
    destruct (sum_cells_honest (b :: l) x xs' HF') as (tr & E1 & E2 & E3 & E4).
    eapply comp_lift_bind; [exact E1|].
    assert (HL : length (b :: l) = length tr) by (rewrite <- E3, map_length; reflexivity).
    rewrite HL.
    destruct (hchain_vals _ _ _ _ E2 a Hx) as (L1 & L2 & V1 & V2 & G & K).
    destruct (nth_error (a :: flat3 tr) (length (a :: flat3 tr) - 1)) as [q|] eqn:En.
    2:{ apply nth_error_None in En. cbn [length] in En. lia. }
    eapply comp_weaken; [apply (comp_region_last lb _ _ q)|..].
    + apply K. eauto using qh_cell.
    + intros o Ho. apply offs3_range in Ho. cbn [length]. rewrite flat3_length. lia.
    + cbn; lia.
    + exact En.
    + exact G.
    + intros rho H. inversion H; subst. apply chain_qok; auto; [rewrite E3; auto|].
      rewrite E4. clear. induction (b :: l); cbn; constructor; auto; exact I.
    + intros o [H1 H2]. split; auto. rewrite H1.
      assert (HV : qvals (a :: flat3 tr) (3 * length tr) = aeval (qadv q)).
      { apply qvals_nth. rewrite <- En. f_equal. cbn [length]. rewrite flat3_length. lia. }
      rewrite V1 in HV by lia.
      assert (HW : exists w, q = Witness w).
      { destruct tr as [|t tr0 _] using rev_ind; [cbn in HL; lia|].
        unfold flat3 in En. rewrite flat_map_app in En. cbn [flat_map app] in En.
        cbn [length] in En. rewrite app_length in En. cbn [length] in En.
        rewrite app_comm_cons, nth_error_app2 in En by (cbn [length]; lia).
        replace (_ - _)%nat with 2%nat in En by (cbn [length]; lia). injection En as <-. eauto. }
      destruct HW as [w ->]. cbn in HV |- *. rewrite <- HV. f_equal. cbn [fsum]. f_equal.
      rewrite !firstn_all2 by lia. apply dot_ones; [|rewrite map_length; auto].
      clear. induction xs'; cbn; constructor; auto.
    + auto.
Qed.
End Chain.
