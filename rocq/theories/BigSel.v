(** Selection, constants, native evaluation and comparisons with zero / between big integers. *)
From Coq Require Import ZArith Znumtheory Lia List Bool Ring.
From Verif Require Import Field Spec Context ContextProofs Utils Logic Gate GateProofs ChainProofs IPProofs BitProofs PowProofs IPComp Derived
  Range RangeProofs RangeProofs2 RangeProofs3 RegionGets Calc CalcH RegionPrev BigPrims BigNum BigInt BigSpec BigOps.
Import ListNotations.
Local Open Scope Z_scope.

Section Sel.
Context {p : positive}.
Notation Fp := (F p).
Notation AV := (AV p).
Notation crt := (crt p).
Variable lb : nat.
Notation env := (env (p:=p)).
Notation hcalc := (hcalc lb).
Hypothesis Hp : prime (Z.pos p).
Add Ring Fring : (F_ring p) (morphism (F_morph p), constants [Fcst]).

(** the cells of [c] carry the values of the cells of [a] *)
Definition same_val (e : env) (c a : crt) : Prop := map e (c_limbs c) = map e (c_limbs a) /\ e (c_nat c) = e (c_nat a).
Lemma same_len (e : env) (c a : crt) : same_val e c a -> length (c_limbs c) = length (c_limbs a).
Proof. intros [H _]. apply (f_equal (@length _)) in H. now rewrite !map_length in H. Qed.
Lemma same_crep n (e : env) (c a : crt) x : same_val e c a -> (c_bits a <= c_bits c)%nat -> crep n e a x -> crep n e c x.
Proof.
  intros HS HB (ls & A1 & A2 & A3 & A4). pose proof (same_len _ _ _ HS) as HL. destruct HS as [H1 H2].
  exists ls. split; [congruence|]. split; [|split; [rewrite HL; auto|congruence]].
  eapply Forall_impl; [|exact A2]. cbv beta. intros l Hl. pose proof (pow2_le _ _ HB). lia.
Qed.
Lemma same_proper n (e : env) (c a : crt) x : same_val e c a -> c_bits c = n -> proper n e a x -> proper n e c x.
Proof.
  intros [H1 H2] HB (_ & A2 & A3 & A4). split; auto.
  assert (E : map (fun a => val (e a)) (c_limbs c) = map (fun a => val (e a)) (c_limbs a)).
  { rewrite <- (map_map e val), H1, map_map. reflexivity. }
  split; [|split; [now rewrite E|congruence]].
  apply Forall_map with (f := e) (P := fun v => val v < 2 ^ Z.of_nat n). rewrite H1. apply Forall_map. exact A2.
Qed.
Lemma map2_left {A B C} (f : A -> C) (a : list A) : forall (b : list B), length a = length b -> map2 (fun x _ => f x) a b = map f a.
Proof. induction a as [|x a IH]; intros [|y b] H; cbn in *; try discriminate; f_equal; auto. Qed.
Lemma map2_right {A B C} (f : B -> C) (a : list A) : forall (b : list B), length a = length b -> map2 (fun _ y => f y) a b = map f b.
Proof. induction a as [|x a IH]; intros [|y b] H; cbn in *; try discriminate; f_equal; auto. Qed.
Lemma av_value_hval (a : AV) v : av_value a = Some v -> hval a = v.
Proof. unfold av_value, hval. destruct (av_val a); cbn; congruence. Qed.
Lemma good_value (a : AV) : good a -> av_value a = Some (hval a).
Proof. intros [H _]. unfold av_value. now rewrite H. Qed.

Lemma h_select_crt L (Pre : env -> Prop) (Hon : Prop) (a b : crt) sel : cpre L a -> cpre L b -> In sel L -> length (c_limbs a) = length (c_limbs b) ->
  hcalc L Pre Hon (select_crt a b sel)
    (fun c => length (c_limbs c) = length (c_limbs a) /\ c_bits c = Nat.max (c_bits a) (c_bits b) /\ c_val c = if Fis0 (hval sel) then c_val b else c_val a)
    (fun e c => forall s : bool, e sel = fbool s -> same_val e c (if s then a else b)) ccells.
Proof.
  intros Ha Hb Hs HL. unfold select_crt, select_assign.
  eapply h_bind. { eapply h_bind; [apply h_limbwise_e with (f := fun x y => select (Existing x) (Existing y) (Existing sel)) (g := fun e u v => ((u - v) * e sel + v)%F)|].
    - intros x y Hx Hy. apply calc_h, (calc_select lb L Pre (Existing x) (Existing y) (Existing sel)); cbn; auto.
    - exact (cpre_limbs _ _ Ha).
    - exact (cpre_limbs _ _ Hb).
    - exact HL.
    - cbv beta. intros l Hl. apply h_ret with (P := fun t => length (o_limbs t) = length (c_limbs a) /\ o_bits t = Nat.max (c_bits a) (c_bits b))
        (R := fun e t => map e (o_limbs t) = map2 (fun u v => ((u - v) * e sel + v)%F) (map e (c_limbs a)) (map e (c_limbs b))) (cs := @o_limbs p).
      + auto.
      + cbn. intros x Hx. apply in_or_app; auto.
      + tauto. }
  cbv beta. intros t [T1 T2].
  eapply h_bind. { apply calc_h, (calc_select lb _ _ (Existing (c_nat a)) (Existing (c_nat b)) (Existing sel)); cbn [qin]; apply in_or_app; right; auto using cpre_nat. }
  cbv beta. intros n _. apply h_lift_bind.
  { intros _ _ HG. rewrite Forall_forall in HG. exists (hval sel). apply good_value, HG. do 2 (apply in_or_app; right). auto. }
  intros s Hs'. apply av_value_hval in Hs'. apply h_ret.
  - cbn. unfold c_limbs, c_bits in *. cbn. subst s. auto.
  - cbn. intros x [<-|Hx]; [now left|right]. apply in_or_app; auto.
  - cbn [qe]. intros e [[_ E1] E2] sb Hsb. unfold same_val, c_limbs in *. cbn [c_trunc c_nat]. rewrite E1, E2, map2_map, Hsb. destruct sb; cbn [fbool].
    + split; [|ring]. rewrite <- (map2_left e _ (o_limbs (c_trunc b))) by auto. apply map2_ext. intros; ring.
    + split; [|ring]. rewrite <- (map2_right e (o_limbs (c_trunc a))) by auto. apply map2_ext. intros; ring.
Qed.

(** *** selection by indicator *)
Lemma h_sbi L (Pre : env -> Prop) (Hon : Prop) (a ind : list AV) : incl a L -> incl ind L -> length a = length ind ->
  (Hon -> Pre hval -> onehot (map hval ind)) ->
  hcalc L Pre Hon (select_by_indicator (map Existing a) ind) (fun _ => True) (fun e o => e o = dot (map e a) (map e ind)) one.
Proof.
  intros Ha Hi HL HO. split.
  - eapply sound_weaken; [apply (select_by_indicator_sound lb); now rewrite map_length|auto|]. cbv beta. intros sg o _ (xs & F & E) _.
    rewrite E. f_equal. clear - F. remember (map Existing a) as l. revert a Heql. induction F; intros [|x0 a] E; cbn in E; try discriminate; auto.
    injection E as -> E. cbn [map]. cbn in H. subst. f_equal; auto.
  - intros HG Hpre Hh.
    assert (G1 : Forall good a) by (rewrite Forall_forall in *; auto). assert (G2 : Forall good ind) by (rewrite Forall_forall in *; auto).
    eapply comp_weaken; [apply (select_by_indicator_comp lb Hp (map Existing a) ind (map hval a) (map hval ind))| | |]; cbv beta.
    + clear - G1. induction G1; cbn; constructor; auto using qh_existing.
    + now apply good_hv_l.
    + now rewrite map_length.
    + auto.
    + intros rho HF. rewrite Forall_forall in HF. split; [apply Forall_map|]; apply Forall_forall; intros x Hx; cbn; auto.
    + intros o Ho. split; auto. split; [constructor; eauto using hv_good|now apply hv_hval].
    + intros rho o _ _ Ho. constructor; auto.
Qed.
Definition onehot_at (j : nat) (ys : list Fp) : Prop := (j < length ys)%nat /\ forall i, (i < length ys)%nat -> nth i ys F0 = fbool (Nat.eqb i j).
Lemma onehot_at_onehot ys j : onehot_at j ys -> onehot ys.
Proof.
  intros [Hj H]. assert (ys = map (fun i => fbool (Z.of_nat j =? Z.of_nat i)) (seq 0 (length ys))) as ->; [|apply idx_onehot].
  apply nth_ext with (d := F0) (d' := fbool (Z.of_nat j =? Z.of_nat 0)).
  - now rewrite map_length, seq_length.
  - intros n Hn. rewrite H by auto. rewrite (map_nth (fun i => fbool (Z.of_nat j =? Z.of_nat i))), seq_nth by lia. cbn [Nat.add]. f_equal.
    destruct (Nat.eqb_spec n j); symmetry; [apply Z.eqb_eq|apply Z.eqb_neq]; lia.
Qed.
(** the honest prover's value *)
Fixpoint sbi_val (acc : Z) (a : list crt) (coeffs : list AV) : Z :=
  match a, coeffs with x :: a, y :: coeffs => sbi_val (if Fis0 (hval y) then acc else c_val x) a coeffs | _, _ => acc end.
Lemma sbi_value_val (a : list crt) : forall coeffs acc v, sbi_value acc a coeffs = Some v -> v = sbi_val acc a coeffs.
Proof.
  induction a as [|x a IH]; intros [|y coeffs] acc v H; cbn in *; try congruence.
  destruct (av_value y) as [w|] eqn:E; [|discriminate]. apply av_value_hval in E. rewrite E. auto.
Qed.
Lemma sbi_value_total (a : list crt) : forall coeffs acc, Forall good coeffs -> exists v, sbi_value acc a coeffs = Some v.
Proof.
  induction a as [|x a IH]; intros [|y coeffs] acc H; cbn [sbi_value]; eauto. inversion H; subst. rewrite (good_value _ H2). auto.
Qed.
Lemma sbi_val_zero : forall (a : list crt) coeffs acc, Forall (fun y => hval y = F0) coeffs -> sbi_val acc a coeffs = acc.
Proof. induction a as [|x a IH]; intros [|y coeffs] acc H; cbn [sbi_val]; auto. inversion H; subst. rewrite H2. replace (Fis0 (0%F : Fp)) with true by reflexivity. auto. Qed.
Lemma sbi_val_onehot (a : list crt) : forall coeffs acc j c, length a = length coeffs -> onehot_at j (map hval coeffs) -> nth_error a j = Some c -> sbi_val acc a coeffs = c_val c.
Proof.
  induction a as [|x a IH]; intros [|y coeffs] acc j c HL [Hj HO] Hn; cbn [length map] in *; try discriminate; [destruct j; discriminate|].
  pose proof (HO O ltac:(lia)) as H0. cbn [nth] in H0. cbn [sbi_val]. destruct j as [|j]; cbn [nth_error] in Hn.
  - injection Hn as ->. rewrite H0. cbn [Nat.eqb fbool].
    replace (Fis0 (1%F : Fp)) with false by (symmetry; apply Fis0_false; apply (F1_neq_0 _ Hp)).
    apply sbi_val_zero. apply Forall_forall. intros z Hz. destruct (In_nth coeffs z z Hz) as (i & Hi & E).
    specialize (HO (S i) ltac:(rewrite map_length; lia)). cbn [nth Nat.eqb fbool] in HO.
    rewrite (nth_indep _ F0 (hval z)) in HO by (now rewrite map_length). rewrite map_nth, E in HO. exact HO.
  - rewrite H0. cbn [Nat.eqb fbool]. replace (Fis0 (0%F : Fp)) with true by reflexivity. apply IH with (j := j); auto.
    split; [rewrite map_length in *; lia|]. intros i Hi. apply (HO (S i)). lia.
Qed.
Lemma max_bits_ge (l : list (ovi p)) : forall acc, (acc <= fold_left (fun acc x => Nat.max acc (o_bits x)) l acc)%nat /\
  forall x, In x l -> (o_bits x <= fold_left (fun acc x => Nat.max acc (o_bits x)) l acc)%nat.
Proof.
  induction l as [|y l IH]; intros acc; cbn [fold_left]; [split; [lia|intros x []]|].
  destruct (IH (Nat.max acc (o_bits y))) as [I1 I2]. split; [lia|]. intros x [<-|Hx]; auto. lia.
Qed.
Lemma max_bits_all (l : list (ovi p)) n : l <> [] -> Forall (fun x => o_bits x = n) l -> max_bits l = n.
Proof.
  intros HN H. unfold max_bits. assert (G : forall acc, (acc <= n)%nat -> (fold_left (fun acc x => Nat.max acc (o_bits x)) l acc <= n)%nat).
  { clear HN. induction H as [|y l Hy _ IH]; intros acc Ha; cbn [fold_left]; auto. apply IH. lia. }
  specialize (G O ltac:(lia)). destruct l as [|y l]; [contradiction|]. inversion H; subst.
  pose proof (proj2 (max_bits_ge (y :: l) O) y (or_introl eq_refl)). lia.
Qed.
Lemma nth_error_map_nth {A B} (f : A -> B) l i d : (i < length l)%nat -> exists x, nth_error l i = Some x /\ nth i (map f l) d = f x.
Proof.
  intros H. destruct (nth_error l i) as [x|] eqn:E; [|apply nth_error_None in E; lia]. exists x. split; auto.
  apply nth_error_nth. now rewrite nth_error_map, E.
Qed.

Lemma h_sbi_limbs L (Pre : env -> Prop) (Hon : Prop) (a : list (list AV)) coeffs k : a <> [] -> Forall (fun r => length r = k) a ->
  Forall (fun r => incl r L) a -> incl coeffs L -> length a = length coeffs ->
  (Hon -> Pre hval -> onehot (map hval coeffs)) ->
  hcalc L Pre Hon (sbi_limbs a coeffs) (fun o => length o = k)
    (fun e o => forall j r, onehot_at j (map e coeffs) -> nth_error a j = Some r -> map e o = map e r) (fun o => o).
Proof.
  intros HN HK HI Hc HL HO. unfold sbi_limbs. destruct a as [|a0 a1] eqn:Ea; [contradiction|]. rewrite <- Ea in *.
  apply h_lift_bind. { intros. rewrite Ea. cbn. eauto. }
  intros r0 Hr0. assert (Lr0 : length r0 = k). { rewrite Forall_forall in HK. apply HK. eapply nth_error_In; eauto. }
  eapply h_post; [apply h_mapM with (P := fun _ _ => True) (cs := one)
     (R := fun e idx o => forall j r, onehot_at j (map e coeffs) -> nth_error a j = Some r -> e o = nth idx (map e r) F0)| | |]; cbv beta.
  - intros idx Hidx. apply in_seq in Hidx. apply h_lift_bind. { intros. apply (column_total idx a). eapply Forall_impl; [|exact HK]. cbv beta. lia. }
    intros c Hcol. apply column_spec in Hcol. pose proof (Forall2_len _ _ _ Hcol) as Lc.
    eapply h_post; [apply h_sbi| | |]; cbv beta; auto.
    + intros x Hx. clear - Hcol HI Hx. induction Hcol as [|r y a c Hy Hcol IH]; [destruct Hx|]. inversion HI; subst. destruct Hx as [<-|Hx]; auto.
      apply H1. eapply nth_error_In; eauto.
    + lia.
    + intros e o _ _ E j r [Hj HOj] Hr. rewrite E.
      rewrite dot_onehot_nth with (i := j); [|rewrite !map_length; lia|auto].
      assert (Hnc : exists x, nth_error c j = Some x /\ nth_error r idx = Some x).
      { clear - Hcol Hr. revert j Hr. induction Hcol as [|r' y a c Hy Hcol IH]; intros [|j] Hr; cbn in *; try discriminate; eauto. injection Hr as ->. eauto. }
      destruct Hnc as (x & X1 & X2).
      rewrite (nth_error_nth (map e c) j F0 (x := e x)) by (now rewrite nth_error_map, X1).
      rewrite (nth_error_nth (map e r) idx F0 (x := e x)) by (now rewrite nth_error_map, X2). reflexivity.
    + intros o _ x Hx. apply in_or_app; auto.
  - intros o H. apply Forall2_len in H. rewrite seq_length in H. lia.
  - intros e o _ _ H j r Hj Hr. assert (Lr : length r = k). { rewrite Forall_forall in HK. apply HK. eapply nth_error_In; eauto. }
    assert (Lo : length o = k). { apply Forall2_len in H. rewrite seq_length in H. lia. }
    apply nth_ext with (d := F0) (d' := F0); [rewrite !map_length; lia|]. rewrite map_length. intros i Hi.
    assert (G : forall l o0 k0, Forall2 (fun idx o => forall j r, onehot_at j (map e coeffs) -> nth_error a j = Some r -> e o = nth idx (map e r) F0) l o0 ->
        l = seq k0 (length l) -> forall i0, (i0 < length o0)%nat -> nth i0 (map e o0) F0 = nth (k0 + i0) (map e r) F0).
    { clear - Hj Hr. intros l o0 k0 F. revert k0. induction F as [|idx o1 l o0 H1 F IH]; intros k0 E i0 Hi0; cbn in Hi0; [lia|].
      cbn [length seq] in E. injection E as E1 E2. destruct i0 as [|i0]; cbn [map nth].
      - rewrite Nat.add_0_r, <- E1. eauto.
      - rewrite <- Nat.add_succ_comm. apply IH; [auto|lia]. }
    apply (G _ _ O H); [now rewrite seq_length|auto].
  - intros o _. rewrite flat_map_one. intros x Hx. apply in_or_app; auto.
Qed.

(** *** native evaluation *)
Lemma h_evaluate_native L (Pre : env -> Prop) (Hon : Prop) limbs bases : incl limbs L -> length limbs = length bases ->
  hcalc L Pre Hon (evaluate_native limbs bases) (fun _ => True) (fun e o => e o = dot (map e limbs) bases) one.
Proof.
  intros HI HL. apply calc_h. eapply calc_weaken; [apply (calc_inner_product lb L Pre)| | | | |]; cbv beta.
  - now rewrite !map_length.
  - now apply qin_existing.
  - apply qin_constant.
  - apply incl_refl.
  - auto.
  - auto.
  - intros e o _ _ E. now rewrite E, qe_existing, qe_constant.
  - intros o _ x Hx. apply in_or_app; auto.
Qed.
Lemma leaves_evaluate_native limbs bases : length limbs = length bases -> leaves_last (evaluate_native (p:=p) limbs bases) (fun x => x).
Proof. intros. apply (leaves_inner_product lb). now rewrite !map_length. Qed.
Lemma dot_bases_val n (vs : list Fp) : dot vs (fbases n (length vs) 1) = of_Z p (undigits n (map val vs)).
Proof.
  rewrite <- (map_of_Z_val vs) at 1. rewrite <- (map_length val vs). rewrite dot_bases. f_equal. lia.
Qed.
Lemma fbases_firstn n : forall k m c, (k <= m)%nat -> firstn k (fbases (p:=p) n m c) = fbases n k c.
Proof. induction k as [|k IH]; intros [|m] c H; cbn [firstn fbases]; auto; [lia|]. f_equal. apply IH. lia. Qed.

Lemma h_sbi_crt L (Pre : env -> Prop) (Hon : Prop) (a : list crt) coeffs bases k : a <> [] -> Forall (fun c => length (c_limbs c) = k) a ->
  Forall (cpre L) a -> incl coeffs L -> length a = length coeffs -> (k <= length bases)%nat ->
  (Hon -> Pre hval -> onehot (map hval coeffs)) ->
  hcalc L Pre Hon (sbi_crt a coeffs bases)
    (fun c => length (c_limbs c) = k /\ c_bits c = max_bits (map c_trunc a) /\ c_val c = sbi_val 0 a coeffs)
    (fun e c => forall j aj, onehot_at j (map e coeffs) -> nth_error a j = Some aj ->
       map e (c_limbs c) = map e (c_limbs aj) /\
       (if Nat.ltb k (length a) then e (c_nat c) = dot (map e (c_limbs c)) (firstn k bases) else e (c_nat c) = e (c_nat aj))) ccells.
Proof.
  intros HN HK HI Hc HL HB HO. unfold sbi_crt. apply h_assert_bind. { intros. now apply Nat.eqb_eq. } intros _. unfold sbi_assign.
  eapply h_bind. { eapply h_bind; [apply h_sbi_limbs with (k := k)|].
    - destruct a; [contradiction|discriminate].
    - rewrite map_map. apply Forall_map. exact HK.
    - rewrite map_map. apply Forall_map. eapply Forall_impl; [|exact HI]. cbv beta. intros c. apply cpre_limbs.
    - exact Hc.
    - now rewrite !map_length.
    - exact HO.
    - cbv beta. intros l Hl. apply h_ret with (P := fun t => length (o_limbs t) = k /\ o_bits t = max_bits (map c_trunc a))
        (R := fun e t => forall j r, onehot_at j (map e coeffs) -> nth_error (map o_limbs (map c_trunc a)) j = Some r -> map e (o_limbs t) = map e r) (cs := @o_limbs p).
      + auto.
      + cbn. intros x Hx. apply in_or_app; auto.
      + cbn. tauto. }
  cbv beta. intros t [T1 T2]. rewrite T1.
  eapply h_bind with (P1 := fun _ => True) (c1 := one)
    (R1 := fun e o => forall j aj, onehot_at j (map e coeffs) -> nth_error a j = Some aj ->
       if Nat.ltb k (length a) then e o = dot (map e (o_limbs t)) (firstn k bases) else e o = e (c_nat aj)).
  { destruct (Nat.ltb_spec k (length a)).
    - apply h_lift_bind. { intros. unfold slice_to. destruct (Nat.leb_spec k (length bases)); [eauto|lia]. }
      intros bs Hbs. unfold slice_to in Hbs. destruct (Nat.leb_spec k (length bases)); [|discriminate]. injection Hbs as <-.
      eapply h_post; [apply h_evaluate_native| | |]; cbv beta; auto.
      + intros x Hx. apply in_or_app; auto.
      + rewrite firstn_length_le; auto.
      + intros o _ x Hx. apply in_or_app; auto.
    - eapply h_post; [rewrite <- map_map with (g := Existing) (f := @c_nat p); apply h_sbi| | |]; cbv beta; auto.
      + intros x Hx. apply in_map_iff in Hx as (c & <- & Hin). apply in_or_app. right. rewrite Forall_forall in HI. apply cpre_nat; auto.
      + intros x Hx. apply in_or_app; auto.
      + now rewrite map_length.
      + tauto.
      + intros e o _ _ E j aj [Hj Hoj] Haj. rewrite E. rewrite dot_onehot_nth with (i := j); [|rewrite !map_length; lia|auto].
        apply nth_error_nth. now rewrite !nth_error_map, Haj.
      + intros o _ x Hx. apply in_or_app; auto. }
  intros n _. apply h_lift_bind.
  { intros _ _ HG. apply sbi_value_total. rewrite Forall_forall in *. intros x Hx. apply HG. do 2 (apply in_or_app; right). auto. }
  intros v Hv. apply sbi_value_val in Hv. apply h_ret.
  - cbn. auto.
  - cbn. intros x [<-|Hx]; [now left|right]. apply in_or_app; auto.
  - cbn. intros e [[_ E1] E2] j aj Hj Haj. split; [|apply (E2 j aj); auto]. apply (E1 j); auto.
    rewrite map_map, nth_error_map, Haj. reflexivity.
Qed.

(** *** proper integers *)
Lemma proper_crep n (e : env) (c : crt) x : proper n e c x -> crep n e c x.
Proof.
  intros (A1 & A2 & A3 & A4). exists (map (fun a => val (e a)) (c_limbs c)). split; [|split; [|split]].
  - rewrite map_map. apply map_ext. intros a. now rewrite of_Z_val.
  - apply Forall_map. eapply Forall_impl; [|exact A2]. cbv beta. intros a Ha. rewrite A1. pose proof (val_bounds p (e a)). lia.
  - rewrite A3, Z.sub_diag. apply Z.divide_0_r.
  - exact A4.
Qed.
Lemma proper_bound n (e : env) (c : crt) x : proper n e c x -> 0 <= x < 2 ^ Z.of_nat (n * length (c_limbs c)).
Proof.
  intros (A1 & A2 & A3 & A4). rewrite A3, <- (map_length (fun a => val (e a)) (c_limbs c)). apply undigits_bound.
  apply Forall_map. eapply Forall_impl; [|exact A2]. cbv beta. intros a Ha. pose proof (val_bounds p (e a)). lia.
Qed.
End Sel.
