(** Inner products, partial sums, accumulated products. *)
From Coq Require Import ZArith Lia List Bool Znumtheory Ring.
From Verif Require Import Field Context ContextProofs Spec Logic Utils Gate GateProofs ChainProofs.
Import ListNotations.
Local Open Scope Z_scope.

Section IP.
Context {p : positive}.
Notation Fp := (F p).
Variable lb : nat.
Notation sound := (sound lb).
Notation comp := (comp lb).
Implicit Types (q : qcell p) (a b : list (qcell p)) (s : st p).
Add Ring Fring : (F_ring p) (morphism (F_morph p), constants [Fcst]).

Lemma skipn_nth {A} (l : list A) : forall m x, nth_error l m = Some x -> skipn m l = x :: skipn (S m) l.
Proof. induction l as [|y l IH]; intros [|m] x H; try discriminate; cbn in *; [injection H as <-; reflexivity|auto]. Qed.

(** ** honest chains: reading cells back *)
Lemma hchain_triv (s : Fp) (tr : list (qcell p * qcell p * Fp)) xs ys : hchain s tr xs ys -> forall start, qh start s ->
  map qadv (start :: flat3 tr) = map (fun k => ATriv (qvals (start :: flat3 tr) k)) (seq 0 (length (start :: flat3 tr))).
Proof.
  induction 1 as [s|s a b x y tr xs ys Ha Hb HC IH]; intros start Hs.
  - cbn. unfold qvals; cbn. rewrite (qh_adv _ _ Hs). reflexivity.
  - specialize (IH (Witness (s + x * y)%F) (qh_witness _)).
    change (flat3 ((a, b, (s + x * y)%F) :: tr)) with (a :: b :: Witness (s + x * y)%F :: flat3 tr).
    remember (Witness (s + x * y)%F :: flat3 tr) as l'.
    change (map qadv (start :: a :: b :: l')) with (qadv start :: qadv a :: qadv b :: map qadv l').
    change (length (start :: a :: b :: l')) with (S (S (S (length l')))). cbn [seq map].
    rewrite (qh_adv _ _ Hs), (qh_adv _ _ Ha), (qh_adv _ _ Hb), IH.
    f_equal; [unfold qvals; cbn; now rewrite (qh_adv _ _ Hs)|].
    f_equal; [unfold qvals; cbn; now rewrite (qh_adv _ _ Ha)|].
    f_equal; [unfold qvals; cbn; now rewrite (qh_adv _ _ Hb)|].
    rewrite <- (seq_shift _ 2), <- (seq_shift _ 1), <- (seq_shift _ 0), !map_map. reflexivity.
Qed.

(** the state after an honest chain region *)
Lemma chain_run (s0 : Fp) (tr : list (qcell p * qcell p * Fp)) xs ys (start : qcell p) (s : st p) : hchain s0 tr xs ys -> qh start s0 -> wf s ->
  let l := start :: flat3 tr in
  exists s', assign_region l (offs3 (length tr)) s = Some (tt, s') /\ wf s' /\ ext s s' /\
    advice s' = advice s ++ map qadv l /\
    (forall k, (k < length l)%nat -> nth_error (advice s') (alen s + k) = Some (ATriv (qvals l k))) /\
    forall rho, Agree rho s' -> Sat lb rho s -> q_ok rho start ->
      Forall (q_ok rho) (map (fun t => fst (fst t)) tr) -> Forall (q_ok rho) (map (fun t => snd (fst t)) tr) ->
      Sat lb rho s'.
Proof.
  intros HC Hs W l. pose proof (hchain_triv _ _ _ _ HC start Hs) as HT. fold l in HT.
  destruct (hchain_vals _ _ _ _ HC start Hs) as (L1 & L2 & V1 & V2 & G & K). fold l in G, K, V1, V2.
  assert (HL : length l = S (3 * length tr)) by (unfold l; cbn [length]; rewrite flat3_length; reflexivity).
  destruct (assign_region_total l (offs3 (length tr)) s W) as [s1 E1].
  { apply K. eauto using qh_cell. }
  { intros o Ho. apply offs3_range in Ho. lia. }
  exists s1. split; auto. apply assign_region_spec in E1 as (W1 & X1 & A1 & _ & _ & _ & _ & _ & S1); auto using offs3_nonneg.
  do 3 (split; auto). split.
  - intros k Hk. rewrite A1, nth_error_app2 by (unfold alen; lia).
    replace (alen s + k - length (advice s))%nat with k by (unfold alen; lia).
    rewrite HT, nth_error_map. rewrite nth_error_nth' with (d := O) by (rewrite seq_length; auto).
    rewrite seq_nth by auto. reflexivity.
  - intros rho HA HS H0 H1 H2. apply S1. split; auto. eapply honest_region; eauto.
    + apply chain_qok; auto.
    + intros k Hk. apply in_offs3 in Hk as (i & Hi & ->). lia.
Qed.

(** an assigned value read from offset [i] *)
Definition at_off (s : st p) (i : nat) (x : AV p) : Prop :=
  av_cell x = Some (cl s i) /\ nth_error (advice s) i = Some (av_val x).
Lemma at_off_in s i x : at_off s i x -> av_in s x.
Proof. intros [H1 H2]. exists i; auto. Qed.
Lemma at_off_hv s i x v : at_off s i x -> nth_error (advice s) i = Some (ATriv v) -> hv x v.
Proof. intros [H1 H2] H. rewrite H in H2. injection H2 as H2. split; congruence. Qed.
Lemma at_off_avs s s0 k x sg : ext s0 s -> at_off s (alen s0 + k) x -> avs sg x = rv sg s0 k.
Proof. intros X [H1 _]. unfold avs, rv. rewrite H1. now rewrite (ext_cl _ _ _ X). Qed.
Lemma last_at s x s' : wf s -> ctx_last s = Some (x, s') -> s' = s /\ at_off s (alen s - 1) x.
Proof.
  intros W H. rewrite ctx_last_get in H. apply ctx_get_spec in H as (-> & i & Hi & Hn & Ha).
  split; auto. destruct (Z.ltb_spec (-1) 0); [|lia].
  replace (alen s - 1)%nat with i by lia. split; auto. rewrite Ha. unfold mk_av. cbn. now rewrite (wf_wgo _ W).
Qed.
Lemma last_total s : (0 < alen s)%nat -> exists x, ctx_last s = Some (x, s).
Proof.
  intros. unfold ctx_last. destruct (nth_error (advice s) (alen s - 1)) eqn:E; [eauto|].
  apply nth_error_None in E. unfold alen in *. lia.
Qed.
Lemma get_at s i x s' : wf s -> ctx_get (Z.of_nat i) s = Some (x, s') -> s' = s /\ at_off s i x.
Proof. intros W H. apply ctx_get_abs in H as (-> & H1 & H2 & _); auto. split; auto. split; auto. Qed.

(** position of the i-th left operand, relative to the start of the region *)
Definition ip_pos (one : bool) (i : nat) : nat :=
  if one then match i with O => O | S i => (3 * i + 1)%nat end else (3 * i + 1)%nat.
Definition ip_gates (one : bool) (n : nat) : nat := if one then (n - 1)%nat else n.

(** ** soundness core *)
Lemma ip_core_sound a b s one s' : wf s -> length a = length b ->
  inner_product_simple a b s = Some (one, s') ->
  wf s' /\ ext s s' /\ one = starts_with_one b /\ (one = true -> (0 < length a)%nat) /\
  alen s' = (alen s + S (3 * ip_gates one (length a)))%nat /\
  forall sg, Sat lb sg s' -> exists xs ys, Forall2 (qsem sg) a xs /\ Forall2 (qsem sg) b ys /\
    (forall i x, nth_error xs i = Some x -> rv sg s (ip_pos one i) = x) /\
    (forall k, (k <= ip_gates one (length a))%nat ->
        rv sg s (3 * k) = let k' := if one then S k else k in dot (firstn k' xs) (firstn k' ys)).
Proof.
  intros W HL H. unfold inner_product_simple in H.
  apply bind_inv in H as (cells & s1 & E1 & H). apply lift_inv in E1 as [E1 ->].
  apply bind_inv in H as (w & s1 & E2 & H). unfold ctx_wgo in E2. injection E2 as <- <-.
  rewrite (wf_wgo _ W) in H.
  apply bind_inv in H as (u & s1 & E2 & H). injection H as <- <-.
  unfold ip_region in E1.
  destruct (starts_with_one b) eqn:Eone.
  - destruct b as [|[?|?|?|c] b]; try discriminate. cbn in Eone. apply Feqb_eq in Eone. subst c.
    destruct a as [|a0 a]; [discriminate|]. cbn [length] in HL. cbn [tl] in E1.
    destruct (q_value a0) as [s0|]; [|discriminate].
    destruct (ip_cells s0 (combine a b)) as [c|] eqn:Ec; [|discriminate]. injection E1 as <-.
    apply ip_cells_flat in Ec as (tr & -> & Etr).
    assert (Ltr : length tr = length a).
    { rewrite <- (map_length fst tr), Etr, combine_length. lia. }
    replace (length (a0 :: flat3 tr) / 3)%nat with (length tr) in E2.
    2:{ cbn [length]. rewrite flat3_length. apply (Nat.div_unique _ 3 _ 1); lia. }
    apply assign_region_spec in E2 as (W1 & X1 & A1 & _ & _ & _ & _ & _ & S1); auto using offs3_nonneg.
    split; auto. split; auto. split; auto. split; [cbn; lia|]. split.
    { unfold alen. rewrite A1, app_length, map_length. cbn [length ip_gates]. rewrite flat3_length. lia. }
    intros sg HS. apply S1 in HS as [_ HR]. apply chain_sem in HR as (xs & ys & Q0 & Fx & Fy & Vx & Vs).
    assert (Ea : map (fun t : qcell p * qcell p * Fp => fst (fst t)) tr = a).
    { rewrite <- (map_map fst fst), Etr. apply map_fst_combine. lia. }
    assert (Eb : map (fun t : qcell p * qcell p * Fp => snd (fst t)) tr = b).
    { rewrite <- (map_map fst snd), Etr. apply map_snd_combine. lia. }
    rewrite Ea in Fx. rewrite Eb in Fy.
    exists (rv sg s 0 :: xs), (F1 :: ys).
    split; [constructor; auto|]. split; [constructor; auto; reflexivity|]. split.
    + intros [|i] x Hn; cbn in Hn; [injection Hn as <-; reflexivity|]. cbn [ip_pos]. apply Vx; auto.
    + cbn [ip_gates length]. intros k Hk. cbn zeta. cbn [firstn dot]. rewrite Vs by lia. ring.
  - destruct (ip_cells F0 (combine a b)) as [c|] eqn:Ec; [|discriminate]. injection E1 as <-.
    apply ip_cells_flat in Ec as (tr & -> & Etr).
    assert (Ltr : length tr = length a).
    { rewrite <- (map_length fst tr), Etr, combine_length. lia. }
    replace (length (Constant F0 :: flat3 tr) / 3)%nat with (length tr) in E2.
    2:{ cbn [length]. rewrite flat3_length. apply (Nat.div_unique _ 3 _ 1); lia. }
    apply assign_region_spec in E2 as (W1 & X1 & A1 & _ & _ & _ & _ & _ & S1); auto using offs3_nonneg.
    split; auto. split; auto. split; auto. split; [discriminate|]. split.
    { unfold alen. rewrite A1, app_length, map_length. cbn [length ip_gates]. rewrite flat3_length. lia. }
    intros sg HS. apply S1 in HS as [_ HR]. apply chain_sem in HR as (xs & ys & Q0 & Fx & Fy & Vx & Vs).
    assert (Ea : map (fun t : qcell p * qcell p * Fp => fst (fst t)) tr = a).
    { rewrite <- (map_map fst fst), Etr. apply map_fst_combine. lia. }
    assert (Eb : map (fun t : qcell p * qcell p * Fp => snd (fst t)) tr = b).
    { rewrite <- (map_map fst snd), Etr. apply map_snd_combine. lia. }
    rewrite Ea in Fx. rewrite Eb in Fy. cbn [qsem] in Q0.
    exists xs, ys. do 2 (split; auto). split; [exact Vx|].
    cbn [ip_gates]. intros k Hk. cbn zeta. rewrite Vs by lia. rewrite Q0. ring.
Qed.

Lemma ip_last_dot (one : bool) (n : nat) (xs ys : list Fp) :
  length xs = n -> length ys = n -> (one = true -> (0 < n)%nat) ->
  (let k' := if one then S (ip_gates one n) else ip_gates one n in dot (firstn k' xs) (firstn k' ys)) = dot xs ys.
Proof.
  intros Lx Ly H. cbn zeta. rewrite !firstn_all2; auto; destruct one; cbn [ip_gates]; try specialize (H eq_refl); lia.
Qed.

Lemma inner_product_sound a b : length a = length b ->
  sound (inner_product a b) (fun _ => True)
   (fun sg o => exists xs ys, Forall2 (qsem sg) a xs /\ Forall2 (qsem sg) b ys /\ avs sg o = dot xs ys).
Proof.
  intros HL s o s' W H. unfold inner_product in H. apply bind_inv in H as (one & s1 & E1 & E2).
  apply ip_core_sound in E1 as (W1 & X1 & O1 & Z1 & L1 & S1); auto.
  apply last_at in E2 as (-> & A1); auto.
  do 3 (split; auto). intros sg HS. destruct (S1 sg HS) as (xs & ys & Fx & Fy & Vx & Vs).
  exists xs, ys. do 2 (split; auto).
  replace (alen s1 - 1)%nat with (alen s + 3 * ip_gates one (length a))%nat in A1 by lia.
  rewrite (at_off_avs _ _ _ _ sg X1 A1), Vs by lia.
  apply ip_last_dot; auto; [rewrite <- (Forall2_len _ _ _ Fx)|rewrite <- (Forall2_len _ _ _ Fy)]; auto.
Qed.

(** ** completeness core *)
Lemma ip_core_comp a b xs ys s : wf s -> Forall2 qh a xs -> Forall2 qh b ys -> length a = length b ->
  exists s', inner_product_simple a b s = Some (starts_with_one b, s') /\ wf s' /\ ext s s' /\
    let one := starts_with_one b in
    alen s' = (alen s + S (3 * ip_gates one (length a)))%nat /\ (one = true -> (0 < length a)%nat) /\
    (forall i, (i < length a)%nat -> nth_error (advice s') (alen s + ip_pos one i) = Some (ATriv (nth i xs F0))) /\
    (forall k, (k <= ip_gates one (length a))%nat ->
       nth_error (advice s') (alen s + 3 * k) =
         Some (ATriv (let k' := if one then S k else k in dot (firstn k' xs) (firstn k' ys)))) /\
    forall rho, Agree rho s' -> Sat lb rho s -> Forall (q_ok rho) a -> Forall (q_ok rho) b -> Sat lb rho s'.
Proof.
  intros W HA HB HL. unfold inner_product_simple, ip_region.
  pose proof (Forall2_len _ _ _ HA) as Lx. pose proof (Forall2_len _ _ _ HB) as Ly.
  destruct (starts_with_one b) eqn:Eone.
  - destruct b as [|[?|?|?|c] b]; try discriminate. cbn in Eone. apply Feqb_eq in Eone. subst c.
    destruct a as [|a0 a]; [discriminate|]. cbn [length] in HL. cbn [tl].
    inversion HA as [|? x0 ? xs' Hx HA']; inversion HB as [|? y0 ? ys' Hy HB']; subst.
    assert (y0 = F1) by (destruct Hy as [Hy _]; cbn in Hy; congruence). subst y0.
    rewrite (qh_val _ _ Hx).
    destruct (ip_cells_honest a b x0 xs' ys' HA' HB') as (tr & E1 & HC & Etr); [lia|].
    rewrite E1.
    assert (Ltr : length tr = length a).
    { rewrite <- (map_length fst tr), Etr, combine_length. lia. }
    destruct (chain_run _ _ _ _ a0 s HC Hx W) as (s' & E2 & W2 & X2 & A2 & V2 & S2).
    destruct (hchain_vals _ _ _ _ HC a0 Hx) as (L1 & L2 & V3 & V4 & _ & _).
    exists s'. split.
    { unfold bind, lift, ctx_wgo; cbn [option_map]. rewrite (wf_wgo _ W).
      replace (length (a0 :: flat3 tr) / 3)%nat with (length tr).
      2:{ cbn [length]. rewrite flat3_length. apply (Nat.div_unique _ 3 _ 1); lia. }
      rewrite E2. reflexivity. }
    do 2 (split; auto). cbn zeta. cbn [ip_gates length].
    split. { unfold alen. rewrite A2, app_length, map_length. cbn [length]. rewrite flat3_length. lia. }
    split; [lia|].
    assert (LL : length (a0 :: flat3 tr) = S (3 * length tr)) by (cbn [length]; rewrite flat3_length; lia).
    split; [|split].
    + intros [|i] Hi; cbn [ip_pos].
      * rewrite V2 by lia. do 2 f_equal. change (qvals (a0 :: flat3 tr) (3 * 0) = x0). rewrite V3 by lia. cbn. ring.
      * rewrite V2 by lia. do 2 f_equal. destruct (V4 i ltac:(lia)) as [-> _]. reflexivity.
    + intros k Hk. rewrite V2 by lia. do 2 f_equal. rewrite V3 by lia. cbn [firstn dot]. ring.
    + intros rho HAg HS Ha Hb. apply S2; auto.
      * now inversion Ha.
      * rewrite <- (map_map fst fst), Etr, map_fst_combine by lia. now inversion Ha.
      * rewrite <- (map_map fst snd), Etr, map_snd_combine by lia. now inversion Hb.
  - destruct (ip_cells_honest a b F0 xs ys HA HB HL) as (tr & E1 & HC & Etr).
    rewrite E1.
    assert (Ltr : length tr = length a).
    { rewrite <- (map_length fst tr), Etr, combine_length. lia. }
    destruct (chain_run _ _ _ _ (Constant F0) s HC (qh_const _) W) as (s' & E2 & W2 & X2 & A2 & V2 & S2).
    destruct (hchain_vals _ _ _ _ HC (Constant F0) (qh_const _)) as (L1 & L2 & V3 & V4 & _ & _).
    exists s'. split.
    { unfold bind, lift, ctx_wgo; cbn [option_map]. rewrite (wf_wgo _ W).
      replace (length (Constant F0 :: flat3 tr) / 3)%nat with (length tr).
      2:{ cbn [length]. rewrite flat3_length. apply (Nat.div_unique _ 3 _ 1); lia. }
      rewrite E2. reflexivity. }
    do 2 (split; auto). cbn zeta. cbn [ip_gates length].
    split. { unfold alen. rewrite A2, app_length, map_length. cbn [length]. rewrite flat3_length. lia. }
    split; [discriminate|].
    assert (LL : length (Constant F0 :: flat3 tr) = S (3 * length tr)) by (cbn [length]; rewrite flat3_length; lia).
    split; [|split].
    + intros i Hi. cbn [ip_pos]. rewrite V2 by lia. do 2 f_equal. destruct (V4 i ltac:(lia)) as [-> _]. reflexivity.
    + intros k Hk. rewrite V2 by lia. do 2 f_equal. rewrite V3 by lia. ring.
    + intros rho HAg HS Ha Hb. apply S2; auto.
      * exact I.
      * rewrite <- (map_map fst fst), Etr, map_fst_combine by lia. auto.
      * rewrite <- (map_map fst snd), Etr, map_snd_combine by lia. auto.
Qed.

Definition qoks (a b : list (qcell p)) := fun rho => Forall (q_ok rho) a /\ Forall (q_ok rho) b.

Lemma inner_product_comp a b xs ys : Forall2 qh a xs -> Forall2 qh b ys -> length a = length b ->
  comp (qoks a b) (inner_product a b) (fun o => hv o (dot xs ys)) (fun rho o => av_ok rho o).
Proof.
  intros HA HB HL s W.
  destruct (ip_core_comp a b xs ys s W HA HB HL) as (s' & E1 & W1 & X1 & L1 & Z1 & V1 & V2 & S1).
  destruct (last_total s') as [x E2]; [lia|].
  exists x, s'. split; [unfold inner_product, bind; rewrite E1; exact E2|]. do 2 (split; auto).
  apply last_at in E2 as (_ & A2); auto.
  split.
  - eapply at_off_hv; [exact A2|].
    replace (alen s' - 1)%nat with (alen s + 3 * ip_gates (starts_with_one b) (length a))%nat by lia.
    rewrite V2 by lia. do 2 f_equal. apply ip_last_dot; auto; [rewrite <- (Forall2_len _ _ _ HA)|rewrite <- (Forall2_len _ _ _ HB)]; auto.
  - intros rho HAg HS [Ha Hb]. split; auto. eapply av_in_ok; eauto. eapply at_off_in; eauto.
Qed.

(** ** inner_product_left_last, inner_product_left, inner_product_with_sums *)
Lemma ip_left_last_pos (one : bool) n row :
  (0 < n)%nat -> (if one then if Nat.eqb n 1 then row else row + 1 + 3 * (n - 2) else row + 1 + 3 * (n - 1))%nat
    = (row + ip_pos one (n - 1))%nat.
Proof.
  intros. destruct one; cbn [ip_pos]; [|lia].
  destruct (Nat.eqb_spec n 1); [subst; cbn; lia|]. destruct n as [|[|n]]; try lia.
  replace (S (S n) - 1)%nat with (S n) by lia. lia.
Qed.

Lemma inner_product_left_last_sound a b : length a = length b ->
  sound (inner_product_left_last a b) (fun _ => True)
   (fun sg o => exists xs ys, Forall2 (qsem sg) a xs /\ Forall2 (qsem sg) b ys /\
      avs sg (fst o) = dot xs ys /\ avs sg (snd o) = last xs F0).
Proof.
  intros HL s o s' W H. unfold inner_product_left_last in H.
  apply bind_inv in H as (row & s0 & E0 & H). injection E0 as <- <-.
  apply bind_inv in H as (one & s1 & E1 & H).
  apply ip_core_sound in E1 as (W1 & X1 & O1 & Z1 & L1 & S1); auto.
  apply bind_inv in H as (al & s2 & E2 & H). apply bind_inv in H as (lst & s3 & E3 & H). injection H as <- <-.
  assert (HP : s2 = s1 /\ (0 < length a)%nat /\ at_off s1 (alen s + ip_pos one (length a - 1)) al).
  { assert (Hn : forall i, ctx_get (Z.of_nat i) s1 = Some (al, s2) -> s2 = s1 /\ at_off s1 i al).
    { intros i Hi. now apply get_at in Hi. }
    destruct (Nat.eq_dec (length a) 0) as [E|E].
    { destruct one; [specialize (Z1 eq_refl); lia|]. apply bind_inv in E2 as (? & ? & C & _).
      apply assert_inv in C as [C _]. apply Nat.leb_le in C. lia. }
    rewrite <- ip_left_last_pos by lia. destruct one.
    - destruct (Nat.eqb (length a) 1); [apply Hn in E2 as [-> HA]; repeat split; try lia; apply HA|].
      apply bind_inv in E2 as (? & ? & C & E2). apply assert_inv in C as [_ ->].
      apply Hn in E2 as [-> HA]. repeat split; try lia; apply HA.
    - apply bind_inv in E2 as (? & ? & C & E2). apply assert_inv in C as [_ ->].
      apply Hn in E2 as [-> HA]. repeat split; try lia; apply HA. }
  destruct HP as (-> & Hn & A2). apply last_at in E3 as (-> & A3); auto.
  do 3 (split; auto). intros sg HS. destruct (S1 sg HS) as (xs & ys & Fx & Fy & Vx & Vs).
  exists xs, ys. do 2 (split; auto). cbn [fst snd].
  pose proof (Forall2_len _ _ _ Fx) as Lx. pose proof (Forall2_len _ _ _ Fy) as Ly. split.
  - replace (alen s1 - 1)%nat with (alen s + 3 * ip_gates one (length a))%nat in A3 by lia.
    rewrite (at_off_avs _ _ _ _ sg X1 A3), Vs by lia. apply ip_last_dot; auto; lia.
  - rewrite (at_off_avs _ _ _ _ sg X1 A2). apply Vx.
    rewrite Lx. destruct xs as [|x xs] using rev_ind; [cbn in Lx; lia|].
    rewrite last_last, app_length. cbn [length]. rewrite nth_error_app2 by lia.
    replace (length xs + 1 - 1 - length xs)%nat with O by lia. reflexivity.
Qed.

Lemma ip_left_pos (one : bool) i row :
  (if one then if Nat.eqb i 0 then row else row + 1 + 3 * (i - 1) else row + 1 + 3 * i)%nat
    = (row + ip_pos one i)%nat.
Proof. destruct one; cbn [ip_pos]; [|lia]. destruct i; cbn [Nat.eqb]; lia. Qed.

Lemma ip_left_gets (one : bool) row n s : mapM (fun i => if (one : bool) then
                        if Nat.eqb i 0 then ctx_get (Z.of_nat row)
                        else ctx_get (Z.of_nat (row + 1 + 3 * (i - 1)))
                      else ctx_get (Z.of_nat (row + 1 + 3 * i))) (seq 0 n) s =
   mapM (fun i => ctx_get (p:=p) (Z.of_nat i)) (map (fun i => (row + ip_pos one i)%nat) (seq 0 n)) s.
Proof.
  rewrite <- (mapM_map (fun i => ctx_get (Z.of_nat i)) (fun i => (row + ip_pos one i)%nat)).
  apply mapM_ext. intros i _ s1. rewrite <- ip_left_pos.
  destruct one; auto. destruct (Nat.eqb i 0); auto.
Qed.

Lemma Forall2_nth_map {A B} (R : A -> B -> Prop) (d : A) l l' :
  Forall2 R l l' -> forall i y, nth_error l' i = Some y -> (i < length l)%nat /\ R (nth i l d) y.
Proof.
  induction 1; intros [|i] z Hn; cbn in Hn; try discriminate.
  - injection Hn as <-. cbn. split; [lia|auto].
  - apply IHForall2 in Hn as [? ?]. cbn. split; [lia|auto].
Qed.

(** the values read back at positions [f i] are those of list [xs] *)
Lemma gets_values sg s s1 (f : nat -> nat) n xs l : ext s s1 -> length xs = n ->
  (forall i x, nth_error xs i = Some x -> rv sg s (f i) = x) ->
  Forall2 (at_off s1) (map (fun i => (alen s + f i)%nat) (seq 0 n)) l -> map (avs sg) l = xs.
Proof.
  intros X L V HF. apply nth_ext with (d := F0) (d' := F0).
  - rewrite map_length, L. apply Forall2_len in HF. rewrite map_length, seq_length in HF. auto.
  - intros i Hi. rewrite map_length in Hi.
    destruct (nth_error l i) as [a|] eqn:Ea; [|apply nth_error_None in Ea; lia].
    destruct (Forall2_nth_map _ O _ _ HF _ _ Ea) as [Hlt HR]. rewrite map_length, seq_length in Hlt.
    rewrite nth_indep with (d' := avs sg a) by (rewrite map_length; auto).
    rewrite map_nth. rewrite (nth_error_nth _ _ _ Ea).
    rewrite nth_indep with (d' := (alen s + f 0)%nat) in HR by (rewrite map_length, seq_length; auto).
    rewrite (map_nth (fun i => (alen s + f i)%nat)), seq_nth in HR by auto.
    rewrite (at_off_avs _ _ _ _ sg X HR). apply V. apply nth_error_nth'. lia.
Qed.
Lemma gets_hv s s1 (f : nat -> nat) n xs l : length xs = n ->
  (forall i, (i < n)%nat -> nth_error (advice s1) (alen s + f i) = Some (ATriv (nth i xs F0))) ->
  Forall2 (at_off s1) (map (fun i => (alen s + f i)%nat) (seq 0 n)) l -> Forall2 hv l xs.
Proof.
  intros L V HF. pose proof (Forall2_len _ _ _ HF) as LL. rewrite map_length, seq_length in LL.
  assert (HG : forall k m, (k + m = n)%nat -> Forall2 hv (skipn m l) (skipn m xs)).
  { induction k as [|k IH]; intros m Hm.
    - rewrite !skipn_all2 by lia. constructor.
    - specialize (IH (S m) ltac:(lia)).
      destruct (nth_error l m) as [a|] eqn:Ea; [|apply nth_error_None in Ea; lia].
      destruct (Forall2_nth_map _ O _ _ HF _ _ Ea) as [Hlt HR]. rewrite map_length, seq_length in Hlt.
      rewrite nth_indep with (d' := (alen s + f 0)%nat) in HR by (rewrite map_length, seq_length; auto).
      rewrite (map_nth (fun i => (alen s + f i)%nat)), seq_nth in HR by auto. cbn [Nat.add] in HR.
      assert (Ex : nth_error xs m = Some (nth m xs F0)) by (apply nth_error_nth'; lia).
      rewrite (skipn_nth l m a Ea), (skipn_nth xs m _ Ex). constructor; auto.
      eapply at_off_hv; [exact HR|]. apply V; auto. }
  apply (HG n O). lia.
Qed.

Lemma inner_product_left_sound a b : length a = length b ->
  sound (inner_product_left a b) (fun o => length (snd o) = length a)
   (fun sg o => exists xs ys, Forall2 (qsem sg) a xs /\ Forall2 (qsem sg) b ys /\
      avs sg (fst o) = dot xs ys /\ map (avs sg) (snd o) = xs).
Proof.
  intros HL s o s' W H. unfold inner_product_left in H.
  apply bind_inv in H as (row & s0 & E0 & H). injection E0 as <- <-.
  apply bind_inv in H as (one & s1 & E1 & H).
  apply ip_core_sound in E1 as (W1 & X1 & O1 & Z1 & L1 & S1); auto.
  apply bind_inv in H as (al & s2 & E2 & H). apply bind_inv in H as (lst & s3 & E3 & H). injection H as <- <-.
  rewrite ip_left_gets in E2. apply mapM_get in E2 as (-> & F2); auto.
  apply last_at in E3 as (-> & A3); auto. cbn [fst snd].
  split; auto. split; auto. split.
  { apply Forall2_len in F2. rewrite map_length, seq_length in F2. auto. }
  intros sg HS. destruct (S1 sg HS) as (xs & ys & Fx & Fy & Vx & Vs).
  exists xs, ys. do 2 (split; auto).
  pose proof (Forall2_len _ _ _ Fx) as Lx. pose proof (Forall2_len _ _ _ Fy) as Ly. split.
  - replace (alen s1 - 1)%nat with (alen s + 3 * ip_gates one (length a))%nat in A3 by lia.
    rewrite (at_off_avs _ _ _ _ sg X1 A3), Vs by lia. apply ip_last_dot; auto; lia.
  - rewrite Lx in F2. eapply gets_values; eauto.
Qed.

Lemma inner_product_left_comp a b xs ys : Forall2 qh a xs -> Forall2 qh b ys -> length a = length b ->
  comp (qoks a b) (inner_product_left a b)
    (fun o => hv (fst o) (dot xs ys) /\ Forall2 hv (snd o) xs)
    (fun rho o => av_ok rho (fst o) /\ Forall (av_ok rho) (snd o)).
Proof.
  intros HA HB HL s W.
  destruct (ip_core_comp a b xs ys s W HA HB HL) as (s' & E1 & W1 & X1 & L1 & Z1 & V1 & V2 & S1).
  pose proof (Forall2_len _ _ _ HA) as Lx. pose proof (Forall2_len _ _ _ HB) as Ly.
  destruct (mapM_get_total (map (fun i => (alen s + ip_pos (starts_with_one b) i)%nat) (seq 0 (length a))) s' W1) as [l E2].
  { rewrite Forall_forall. intros i Hi. apply in_map_iff in Hi as (j & <- & Hj). apply in_seq in Hj.
    assert (HS : nth_error (advice s') (alen s + ip_pos (starts_with_one b) j) <> None) by (rewrite V1 by lia; discriminate).
    apply nth_error_Some in HS. unfold alen at 2. lia. }
  destruct (last_total s') as [x E3]; [lia|].
  exists (x, l), s'. split.
  { unfold inner_product_left. unfold bind at 1, ctx_len. unfold bind at 1. rewrite E1. unfold bind at 1.
    rewrite ip_left_gets, E2. unfold bind. rewrite E3. reflexivity. }
  do 2 (split; auto).
  apply last_at in E3 as (_ & A3); auto. apply mapM_get in E2 as (_ & F2); auto. cbn [fst snd].
  split; [split|].
  - eapply at_off_hv; [exact A3|].
    replace (alen s' - 1)%nat with (alen s + 3 * ip_gates (starts_with_one b) (length a))%nat by lia.
    rewrite V2 by lia. do 2 f_equal. apply ip_last_dot; auto; lia.
  - eapply gets_hv; [symmetry; exact Lx|exact V1|exact F2].
  - intros rho HAg HS [Ha Hb]. split; auto. split; [eapply av_in_ok; eauto; eapply at_off_in; eauto|].
    clear - F2 HAg. induction F2; constructor; auto. eapply av_in_ok; eauto. eapply at_off_in; eauto.
Qed.

(** running sums of an inner product: s_1, ..., s_n with s_k the inner product of the first k entries *)
Definition run_dots (xs ys : list Fp) : list Fp :=
  map (fun k => dot (firstn k xs) (firstn k ys)) (seq 1 (length xs)).

Lemma inner_product_with_sums_sound a b : length a = length b ->
  sound (inner_product_with_sums a b) (fun o => length o = length a)
   (fun sg o => exists xs ys, Forall2 (qsem sg) a xs /\ Forall2 (qsem sg) b ys /\ map (avs sg) o = run_dots xs ys).
Proof.
  intros HL s o s' W H. unfold inner_product_with_sums in H.
  apply bind_inv in H as (row & s0 & E0 & H). injection E0 as <- <-.
  apply bind_inv in H as (one & s1 & E1 & H).
  apply ip_core_sound in E1 as (W1 & X1 & O1 & Z1 & L1 & S1); auto.
  apply bind_inv in H as (len & s2 & E2 & H). injection E2 as <- <-.
  rewrite L1 in H. clear O1.
  replace (alen s + S (3 * ip_gates one (length a)) - alen s + 2)%nat with (3 * S (ip_gates one (length a)))%nat in H by lia.
  rewrite Nat.mul_comm, Nat.div_mul in H by lia.
  set (f := fun i => if one then (3 * i)%nat else (3 * S i)%nat).
  assert (Hidx : (if one then map (fun i => (alen s + 3 * i)%nat) (seq 0 (S (ip_gates one (length a))))
       else tl (map (fun i => (alen s + 3 * i)%nat) (seq 0 (S (ip_gates one (length a)))))) =
       map (fun i => (alen s + f i)%nat) (seq 0 (length a))).
  { unfold f. destruct one; cbn [ip_gates].
    - specialize (Z1 eq_refl). replace (S (length a - 1)) with (length a) by lia. reflexivity.
    - cbn [seq map tl]. rewrite <- seq_shift, map_map. reflexivity. }
  rewrite Hidx in H. apply mapM_get in H as (-> & F2); auto.
  split; auto. split; auto. split. { apply Forall2_len in F2. rewrite map_length, seq_length in F2. auto. }
  intros sg HS. destruct (S1 sg HS) as (xs & ys & Fx & Fy & Vx & Vs).
  exists xs, ys. do 2 (split; auto).
  pose proof (Forall2_len _ _ _ Fx) as Lx. pose proof (Forall2_len _ _ _ Fy) as Ly.
  eapply gets_values with (f := f) (n := length a); [exact X1| | |exact F2].
  { unfold run_dots. rewrite map_length, seq_length. auto. }
  intros i x Hn. assert (Hi : (i < length (run_dots xs ys))%nat) by (apply nth_error_Some; congruence).
  unfold run_dots in *. rewrite map_length, seq_length in Hi.
  rewrite nth_error_map, nth_error_nth' with (d := O) in Hn by (rewrite seq_length; auto).
  rewrite seq_nth in Hn by auto. injection Hn as <-.
  unfold f. destruct one; cbn [ip_gates] in Vs.
  - rewrite Vs by lia. reflexivity.
  - rewrite Vs by lia. reflexivity.
Qed.

(** ** partial sums *)
Lemma rev_seq_gets n : forall (row : nat) (s : st p), alen s = (row + S (3 * n))%nat ->
  mapM (fun i => ctx_get (-1 - 3 * Z.of_nat i)) (rev (seq 0 (S n))) s =
  mapM (fun i => ctx_get (Z.of_nat i)) (map (fun i => (row + 3 * i)%nat) (seq 0 (S n))) s.
Proof.
  intros row s HL.
  assert (HR : rev (seq 0 (S n)) = map (fun i => (n - i)%nat) (seq 0 (S n))).
  { apply nth_ext with (d := O) (d' := (n - 0)%nat).
    - now rewrite rev_length, map_length.
    - intros i Hi. rewrite rev_length, seq_length in Hi.
      rewrite rev_nth, seq_length by (rewrite seq_length; lia).
      rewrite map_nth with (f := fun i => (n - i)%nat). rewrite !seq_nth by lia. lia. }
  rewrite HR, <- (mapM_map (fun i => ctx_get (-1 - 3 * Z.of_nat i)) (fun i => (n - i)%nat)).
  rewrite <- (mapM_map (fun i => ctx_get (Z.of_nat i)) (fun i => (row + 3 * i)%nat)).
  assert (HF : Forall (fun i => (i <= n)%nat) (seq 0 (S n))).
  { rewrite Forall_forall. intros i Hi. apply in_seq in Hi. lia. }
  revert HF. generalize (seq 0 (S n)). intros l HF.
  induction HF as [|i l Hi HF IH]; [reflexivity|]. cbn [mapM]. unfold bind.
  assert (E : ctx_get (-1 - 3 * Z.of_nat (n - i)) s = ctx_get (Z.of_nat (row + 3 * i)) s).
  { unfold ctx_get. destruct (Z.ltb_spec (-1 - 3 * Z.of_nat (n - i)) 0); [|lia].
    destruct (Z.ltb_spec (Z.of_nat (row + 3 * i)) 0); [lia|].
    replace (Z.of_nat (alen s) + (-1 - 3 * Z.of_nat (n - i))) with (Z.of_nat (row + 3 * i)) by lia. reflexivity. }
  rewrite E. destruct (ctx_get (Z.of_nat (row + 3 * i)) s) as [[x s1]|] eqn:Eg; [|reflexivity].
  apply ctx_get_spec in Eg as (-> & _). now rewrite IH.
Qed.

(** prefix sums of a non-empty list *)
Definition prefix_sums (xs : list Fp) : list Fp := map (fun k => fsum (firstn k xs)) (seq 1 (length xs)).

Lemma dot_ones_firstn (xs ys : list Fp) k : Forall (fun y => y = F1) ys -> length ys = length xs ->
  dot (firstn k xs) (firstn k ys) = fsum (firstn k xs).
Proof.
  intros. apply dot_ones.
  - rewrite Forall_forall in *. intros y Hy. apply H. rewrite <- (firstn_skipn k ys). apply in_or_app; auto.
  - rewrite !firstn_length. lia.
Qed.

Lemma partial_sums_sound (l : list (qcell p)) : sound (partial_sums l) (fun _ => True)
  (fun sg o => exists xs, Forall2 (qsem sg) l xs /\
     map (avs sg) o = match xs with [] => [F0] | _ => prefix_sums xs end).
Proof.
  unfold partial_sums. destruct l as [|a [|b l]].
  - eapply sound_bind; [apply sound_load_zero|]. intros z _. apply sound_ret; auto.
    intros sg Hz. exists []. cbn. rewrite Hz. auto.
  - eapply sound_bind; [apply sound_region_last; [constructor|cbn; lia]|]. intros z _. apply sound_ret; auto.
    intros sg (v & [Hq _] & Ho). exists [v O]. split; [constructor; auto; apply (Hq O); reflexivity|].
    cbn in *. rewrite Ho. f_equal. ring.
  - apply sound_lift_bind; intros s0 E0. apply sound_lift_bind; intros cells E1.
    apply sum_cells_flat in E1 as (tr & -> & E2 & E3).
    assert (HL : length (b :: l) = length tr) by (rewrite <- E2, map_length; reflexivity).
    rewrite HL. intros s o s' W H. apply bind_inv in H as ([] & s1 & H1 & H).
    apply assign_region_spec in H1 as (W1 & X1 & A1 & _ & _ & _ & _ & _ & S1); auto using offs3_nonneg.
    rewrite (rev_seq_gets (length tr) (alen s)) in H.
    2:{ unfold alen. rewrite A1, app_length, map_length. cbn [length]. rewrite flat3_length. lia. }
    apply mapM_get in H as (-> & F2); auto.
    do 3 (split; auto). intros sg HS. apply S1 in HS as [_ HR].
    apply chain_sem in HR as (xs & ys & Q0 & Fx & Fy & _ & Vs).
    rewrite E2 in Fx. rewrite E3 in Fy.
    pose proof (Forall2_len _ _ _ Fx) as Lx. pose proof (Forall2_len _ _ _ Fy) as Ly. rewrite map_length in Ly.
    exists (rv sg s 0 :: xs). split; [constructor; auto|].
    eapply gets_values with (f := fun i => (3 * i)%nat) (n := S (length tr)); [exact X1| | |exact F2].
    { unfold prefix_sums. rewrite map_length, seq_length. cbn [length]. lia. }
    intros i x Hn. assert (Hi : (i < length (prefix_sums (rv sg s 0%nat :: xs)))%nat) by (apply nth_error_Some; congruence).
    unfold prefix_sums in *. rewrite map_length, seq_length in Hi. cbn [length] in Hi.
    rewrite nth_error_map, nth_error_nth' with (d := O) in Hn by (rewrite seq_length; auto).
    rewrite seq_nth in Hn by auto. injection Hn as <-. cbn [Nat.add firstn fsum].
    rewrite Vs by lia. f_equal. apply dot_ones_firstn; [|lia]. eapply qsem_consts; eauto.
Qed.

(** ** accumulated products (Horner): x_0 = b_0, x_{i+1} = x_i * a_i + b_{i+1} *)
Fixpoint horner (x : Fp) (ab : list (Fp * Fp)) : list Fp :=
  match ab with [] => [] | (a, b) :: ab => (x * a + b)%F :: horner (x * a + b)%F ab end.

Lemma acc_prod_sound (ab : list (qcell p * qcell p)) : forall x, sound (acc_prod x ab) (fun _ => True)
  (fun sg o => exists xys, Forall2 (fun (q : qcell p * qcell p) (v : Fp * Fp) => qsem sg (fst q) (fst v) /\ qsem sg (snd q) (snd v)) ab xys /\
     map (avs sg) o = horner (avs sg x) xys).
Proof.
  induction ab as [|[a b] ab IH]; intros x; cbn [acc_prod].
  - apply sound_ret; auto. intros sg. exists []. auto.
  - eapply sound_bind; [apply mul_add_sound|]. intros y _. eapply sound_bind; [apply IH|]. intros l _.
    apply sound_ret; auto. intros sg (xys & F1' & E1) (vx & va & vb & Hx & Ha & Hb & Hy).
    cbn in Hx. subst vx. exists ((va, vb) :: xys). split; [constructor; auto|]. cbn. now rewrite E1, Hy.
Qed.
Lemma acc_prod_comp (ab : list (qcell p * qcell p)) : forall x vx xys, hv x vx ->
  Forall2 (fun (q : qcell p * qcell p) (v : Fp * Fp) => qh (fst q) (fst v) /\ qh (snd q) (snd v)) ab xys ->
  comp (fun rho => av_ok rho x /\ Forall (fun (q : qcell p * qcell p) => q_ok rho (fst q) /\ q_ok rho (snd q)) ab) (acc_prod x ab)
    (fun o => Forall2 hv o (horner vx xys)) (fun rho o => Forall (av_ok rho) o).
Proof.
  induction ab as [|[a b] ab IH]; intros x vx xys Hx HF; inversion HF as [|? [va vb] ? xys' [Ha Hb] HF']; subst; cbn [acc_prod].
  - apply comp_ret; auto. constructor.
  - cbn [fst snd] in *. eapply comp_bind; [apply mul_add_comp; eauto using qh_existing|..].
    { intros rho [H1 H2]. inversion H2 as [|? ? [? ?] ?]; subst. repeat split; auto; apply H1. }
    intros y Hy. eapply comp_bind; [apply (IH y _ xys' Hy HF')|..].
    { intros rho [[H1 H2] H3]. inversion H2; subst. auto. }
    intros l Hl. apply comp_ret; [constructor; auto|]. intros rho [[_ H1] H2]. constructor; auto.
Qed.

Lemma accumulated_product_sound a b : length b = S (length a) ->
  sound (accumulated_product a b) (fun _ => True)
  (fun sg o => exists (b0 : Fp) xs ys, Forall2 (qsem sg) a xs /\ Forall2 (qsem sg) b (b0 :: ys) /\
      map (avs sg) o = b0 :: horner b0 (combine xs ys)).
Proof.
  intros HL. unfold accumulated_product. destruct b as [|b0 b]; [discriminate|]. cbn [length] in HL.
  eapply sound_bind; [apply sound_region_last; [constructor|cbn; lia]|]. intros x _.
  eapply sound_bind; [apply acc_prod_sound|]. intros l _. apply sound_ret; auto.
  intros sg (xys & HF & E) (v & [Hq _] & Ho). cbn in Ho.
  assert (HX : Forall2 (qsem sg) a (map fst xys) /\ Forall2 (qsem sg) b (map snd xys)).
  { injection HL as HL. clear - HF HL. revert b xys HL HF. induction a as [|q a IH]; intros [|r b] xys HL HF; try discriminate.
    - inversion HF; subst. split; constructor.
    - inversion HF as [|? [u w] ? ? [H1 H2] H3]; subst. destruct (IH b l') as [I1 I2]; auto.
      split; constructor; auto. }
  exists (v O), (map fst xys), (map snd xys). split; [tauto|]. split.
  - constructor; [apply (Hq O); reflexivity|tauto].
  - cbn. rewrite E, Ho. f_equal. f_equal. clear. induction xys as [|[u w] l IH]; cbn; congruence.
Qed.

(** ** sum_products_with_coeff_and_var *)
Definition spc_value (x : list (Fp * Fp * Fp)) : Fp :=
  fsum (map (fun t => fst (fst t) * snd (fst t) * snd t)%F x).
Definition spc_sem sg (values : list (Fp * qcell p * qcell p)) (ts : list (Fp * Fp * Fp)) : Prop :=
  Forall2 (fun (q : Fp * qcell p * qcell p) (t : Fp * Fp * Fp) => fst (fst t) = fst (fst q) /\
     (fst (fst q) <> F0 -> qsem sg (snd (fst q)) (snd (fst t)) /\ qsem sg (snd q) (snd t))) values ts.

Lemma spc_terms_sound values : sound (spc_terms values) (fun _ => True)
  (fun sg o => forall us ws, Forall2 (qsem sg) (map fst o) us -> Forall2 (qsem sg) (map snd o) ws ->
     exists ts, spc_sem sg values ts /\ dot us ws = spc_value ts).
Proof.
  induction values as [|[[c va] vb] rest IH]; cbn [spc_terms].
  - apply sound_ret; auto. intros sg us ws H1 H2. inversion H1; inversion H2; subst. exists []. split; [constructor|reflexivity].
  - destruct (Feqb c F1) eqn:E1.
    + apply Feqb_eq in E1. subst c. eapply sound_bind; [apply IH|]. intros l _. apply sound_ret; auto.
      intros sg HI us ws H1 H2. cbn in H1, H2. inversion H1 as [|? u ? us' Hu H1']; inversion H2 as [|? w ? ws' Hw H2']; subst.
      destruct (HI _ _ H1' H2') as (ts & T1 & T2). exists ((F1, u, w) :: ts). split; [constructor; auto|].
      cbn. fold (spc_value ts). rewrite T2. unfold spc_value. ring.
    + destruct (Feqb c F0) eqn:E0; cbn [negb].
      * apply Feqb_eq in E0. subst c. eapply sound_weaken; [apply IH|auto|]. intros sg o _ HI us ws H1 H2.
        destruct (HI _ _ H1 H2) as (ts & T1 & T2). exists ((F0, F0, F0) :: ts). split.
        { constructor; auto. cbn. split; auto. congruence. }
        rewrite T2. unfold spc_value. cbn. ring.
      * eapply sound_bind; [apply mul_sound|]. intros pr _. eapply sound_bind; [apply IH|]. intros l _.
        apply sound_ret; auto. intros sg HI (x & y & Hx & Hy & Hp) us ws H1 H2. cbn in H1, H2.
        inversion H1 as [|? u ? us' Hu H1']; inversion H2 as [|? w ? ws' Hw H2']; subst. cbn in Hu, Hw. subst u w.
        destruct (HI _ _ H1' H2') as (ts & T1 & T2). exists ((c, x, y) :: ts). split; [constructor; auto|].
        unfold spc_value in *. cbn. rewrite T2, Hp. ring.
Qed.
Lemma sum_products_sound values var : sound (sum_products_with_coeff_and_var values var) (fun _ => True)
  (fun sg o => exists v ts, qsem sg var v /\ spc_sem sg values ts /\ avs sg o = (v + spc_value ts)%F).
Proof.
  unfold sum_products_with_coeff_and_var. eapply sound_bind; [apply spc_terms_sound|]. intros l _.
  eapply sound_weaken; [apply inner_product_sound; cbn; now rewrite !map_length|auto|].
  intros sg o _ (xs & ys & Fx & Fy & Ho) HI.
  inversion Fx as [|? v ? xs' Hv Fx']; inversion Fy as [|? w ? ys' Hw Fy']; subst. cbn in Hw. subst w.
  destruct (HI _ _ Fx' Fy') as (ts & T1 & T2). exists v, ts. split; auto. split; auto.
  rewrite Ho. cbn. rewrite T2. ring.
Qed.

Lemma spc_terms_comp values ts :
  Forall2 (fun (q : Fp * qcell p * qcell p) (t : Fp * Fp * Fp) => fst (fst t) = fst (fst q) /\ qh (snd (fst q)) (snd (fst t)) /\ qh (snd q) (snd t)) values ts ->
  comp (fun rho => Forall (fun (q : Fp * qcell p * qcell p) => q_ok rho (snd (fst q)) /\ q_ok rho (snd q)) values) (spc_terms values)
   (fun o => exists us ws, Forall2 qh (map fst o) us /\ Forall2 qh (map snd o) ws /\ dot us ws = spc_value ts)
   (fun rho o => Forall (q_ok rho) (map fst o) /\ Forall (q_ok rho) (map snd o)).
Proof.
  revert ts. induction values as [|[[c va] vb] rest IH]; intros ts HF;
    inversion HF as [|? [[c' x] y] ? ts' (Hc & Hx & Hy) HF']; subst; cbn [spc_terms]; cbn [fst snd] in *.
  - apply comp_ret; [exists [], []; repeat split; constructor|]. intros; split; constructor.
  - subst c'. destruct (Feqb c F1) eqn:E1.
    + apply Feqb_eq in E1. subst c. eapply comp_bind; [apply (IH _ HF')|..].
      { intros rho H. now inversion H. }
      intros l (us & ws & U1 & U2 & U3). apply comp_ret.
      * exists (x :: us), (y :: ws). cbn. repeat split; try constructor; auto. rewrite U3. unfold spc_value. cbn. ring.
      * intros rho [H1 [H2 H3]]. inversion H1 as [|? ? [? ?]]; subst. cbn. split; constructor; auto.
    + destruct (Feqb c F0) eqn:E0; cbn [negb].
      * apply Feqb_eq in E0. subst c. eapply comp_weaken; [apply (IH _ HF')|..].
        { intros rho H. now inversion H. }
        { intros l (us & ws & U1 & U2 & U3). exists us, ws. repeat split; auto. rewrite U3. unfold spc_value. cbn. ring. }
        auto.
      * eapply comp_bind; [apply mul_comp; eauto|..].
        { intros rho H. inversion H as [|? ? [? ?]]; subst. split; auto. }
        intros pr Hpr. eapply comp_bind; [apply (IH _ HF')|..].
        { intros rho [H _]. now inversion H. }
        intros l (us & ws & U1 & U2 & U3). apply comp_ret.
        -- exists ((x * y)%F :: us), (c :: ws). cbn. split; [constructor; auto using qh_existing|].
           split; [constructor; auto using qh_const|]. rewrite U3. unfold spc_value. cbn. ring.
        -- intros rho [[H1 H2] [H3 H4]]. cbn. split; constructor; auto. exact I.
Qed.
Lemma sum_products_comp values var ts v : qh var v ->
  Forall2 (fun (q : Fp * qcell p * qcell p) (t : Fp * Fp * Fp) => fst (fst t) = fst (fst q) /\ qh (snd (fst q)) (snd (fst t)) /\ qh (snd q) (snd t)) values ts ->
  comp (fun rho => q_ok rho var /\ Forall (fun (q : Fp * qcell p * qcell p) => q_ok rho (snd (fst q)) /\ q_ok rho (snd q)) values)
    (sum_products_with_coeff_and_var values var) (fun o => hv o (v + spc_value ts)%F) (fun rho o => av_ok rho o).
Proof.
  intros Hv HF. unfold sum_products_with_coeff_and_var. eapply comp_bind; [apply (spc_terms_comp _ _ HF)|tauto|].
  intros l (us & ws & U1 & U2 & U3).
  eapply comp_weaken; [apply (inner_product_comp _ _ (v :: us) (F1 :: ws))|..].
  - constructor; auto.
  - constructor; auto using qh_const.
  - cbn. now rewrite !map_length.
  - intros rho [[H1 H2] [H3 H4]]. split; constructor; auto. exact I.
  - intros o Ho. replace (v + spc_value ts)%F with (dot (v :: us) (F1 :: ws)); auto. cbn. rewrite U3. ring.
  - auto.
Qed.
End IP.
