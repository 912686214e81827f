(** Two small program logics over the context monad, used by all circuit proofs.
    [sound]   : whatever a (malicious) assignment does, if it satisfies the constraints, then ...
    [comp]    : the honest run does not panic and its own witness satisfies the constraints. *)
From Coq Require Import ZArith Lia List Bool Znumtheory.
From Verif Require Import Field Context ContextProofs Spec.
Import ListNotations.
Local Open Scope Z_scope.

Section Logic.
Context {p : positive}.
Notation Fp := (F p).
Variable lb : nat.
Implicit Types (s : st p) (q : qcell p).

(** every successful run of [m] in keygen mode loses no constraint, its result satisfies the structural fact [P],
    and under every assignment satisfying the resulting constraints it satisfies [Q] *)
Definition sound {A} (m : M p A) (P : A -> Prop) (Q : (cell -> Fp) -> A -> Prop) : Prop :=
  forall s a s', wf s -> m s = Some (a, s') ->
    wf s' /\ ext s s' /\ P a /\ forall sg, Sat lb sg s' -> Q sg a.

(** the honest run of [m] succeeds, its result satisfies [P], and for every assignment [rho] that agrees with the
    computed witness and satisfies the earlier constraints and [H], the new constraints and [Q] hold *)
Definition comp {A} (H : (cell -> Fp) -> Prop) (m : M p A) (P : A -> Prop) (Q : (cell -> Fp) -> A -> Prop) : Prop :=
  forall s, wf s -> exists a s', m s = Some (a, s') /\ wf s' /\ ext s s' /\ P a /\
    forall rho, Agree rho s' -> Sat lb rho s -> H rho -> Sat lb rho s' /\ Q rho a.

Lemma sound_ret {A} (a : A) (P : A -> Prop) (Q : (cell -> Fp) -> A -> Prop) :
  P a -> (forall sg, Q sg a) -> sound (ret a) P Q.
Proof. intros HP HQ s b s' W H. injection H as <- <-. auto 10 using ext_refl. Qed.

Lemma sound_panic {A} P Q : sound (A:=A) panic P Q.
Proof. intros s b s' W H. discriminate. Qed.

Lemma sound_weaken {A} (m : M p A) P Q (P' : A -> Prop) (Q' : (cell -> Fp) -> A -> Prop) :
  sound m P Q -> (forall a, P a -> P' a) -> (forall sg a, P a -> Q sg a -> Q' sg a) -> sound m P' Q'.
Proof. intros HS HP HQ s a s' W H. destruct (HS _ _ _ W H) as (? & ? & ? & ?). split; [|split; [|split]]; eauto. Qed.

Lemma sound_bind {A B} (m : M p A) (f : A -> M p B) P1 Q1 P2 (Q2 : (cell -> Fp) -> B -> Prop) :
  sound m P1 Q1 ->
  (forall a, P1 a -> sound (f a) P2 (fun sg b => Q1 sg a -> Q2 sg b)) ->
  sound (bind m f) P2 Q2.
Proof.
  intros H1 H2 s b s' W H. apply bind_inv in H as (a & s1 & E1 & E2).
  destruct (H1 _ _ _ W E1) as (W1 & X1 & PA & QA).
  destruct (H2 a PA _ _ _ W1 E2) as (W2 & X2 & PB & QB).
  split; auto. split; [eapply ext_trans; eauto|]. split; auto.
  intros sg HS. apply QB; auto. apply QA. eapply sat_mono; eauto.
Qed.

Lemma sound_lift {A} (o : option A) : sound (lift o) (fun a => o = Some a) (fun _ _ => True).
Proof. intros s a s' W H. apply lift_inv in H as [-> ->]. auto 10 using ext_refl. Qed.

Lemma sound_assert c : sound (assert_ c) (fun _ => c = true) (fun _ _ => True).
Proof. intros s a s' W H. apply assert_inv in H as [-> ->]. auto 10 using ext_refl. Qed.

Lemma sound_len : sound ctx_len (fun _ => True) (fun _ _ => True).
Proof. intros s a s' W H. injection H as <- <-. auto 10 using ext_refl. Qed.

Lemma sound_wgo : sound ctx_wgo (fun b => b = false) (fun _ _ => True).
Proof. intros s a s' W H. injection H as <- <-. split; auto. split; [apply ext_refl|]. split; [apply W|auto]. Qed.

Lemma sound_mapM {A B} (f : A -> M p B) (P : A -> B -> Prop) (Q : (cell -> Fp) -> A -> B -> Prop) l :
  (forall x, In x l -> sound (f x) (P x) (fun sg y => Q sg x y)) ->
  sound (mapM f l) (fun ys => Forall2 P l ys) (fun sg ys => Forall2 (Q sg) l ys).
Proof.
  induction l as [|x l IH]; intros HF; cbn [mapM].
  - apply sound_ret; auto.
  - eapply sound_bind; [apply HF; now left|]. intros y Py.
    eapply sound_bind; [apply IH; intros; apply HF; now right|]. intros ys Pys.
    apply sound_ret; auto.
Qed.

Lemma sound_iterM {A} (f : A -> M p unit) (Q : (cell -> Fp) -> A -> Prop) l :
  (forall x, In x l -> sound (f x) (fun _ => True) (fun sg _ => Q sg x)) ->
  sound (iterM f l) (fun _ => True) (fun sg _ => Forall (Q sg) l).
Proof.
  induction l as [|x l IH]; intros HF; cbn [iterM].
  - apply sound_ret; auto.
  - eapply sound_bind; [apply HF; now left|]. intros [] _.
    eapply sound_weaken; [apply IH; intros; apply HF; now right| auto |].
    intros sg [] _ H1 H2. constructor; auto.
Qed.

(** ** completeness rules *)
Lemma comp_ret {A} (a : A) (H : (cell -> Fp) -> Prop) (P : A -> Prop) (Q : (cell -> Fp) -> A -> Prop) :
  P a -> (forall rho, H rho -> Q rho a) -> comp H (ret a) P Q.
Proof. intros HP HQ s W. exists a, s. split; [reflexivity|]. auto 10 using ext_refl. Qed.

Lemma comp_weaken {A} (m : M p A) (H H' : (cell -> Fp) -> Prop) P Q (P' : A -> Prop) (Q' : (cell -> Fp) -> A -> Prop) :
  comp H m P Q -> (forall rho, H' rho -> H rho) -> (forall a, P a -> P' a) ->
  (forall rho a, H' rho -> P a -> Q rho a -> Q' rho a) -> comp H' m P' Q'.
Proof.
  intros HC HH HP HQ s W. destruct (HC s W) as (a & s' & E & W' & X & PA & R).
  exists a, s'. do 3 (split; auto). split; auto. intros rho HA HS HR.
  destruct (R rho HA HS (HH _ HR)) as [R1 R2]. auto.
Qed.

Lemma comp_bind {A B} (m : M p A) (f : A -> M p B) (H H1 : (cell -> Fp) -> Prop) P1 Q1 P2 Q2 :
  comp H1 m P1 Q1 -> (forall rho, H rho -> H1 rho) ->
  (forall a, P1 a -> comp (fun rho => H rho /\ Q1 rho a) (f a) P2 Q2) ->
  comp H (bind m f) P2 Q2.
Proof.
  intros C1 HH C2 s W. destruct (C1 s W) as (a & s1 & E1 & W1 & X1 & PA & R1).
  destruct (C2 a PA s1 W1) as (b & s2 & E2 & W2 & X2 & PB & R2).
  exists b, s2. split; [unfold bind; rewrite E1; exact E2|]. split; auto. split; [eapply ext_trans; eauto|].
  split; auto. intros rho HA HS HR.
  destruct (R1 rho (agree_mono _ _ _ X2 HA) HS (HH _ HR)) as [S1 Q].
  apply R2; auto.
Qed.

Lemma comp_lift {A} (o : option A) a H : o = Some a -> comp H (lift o) (fun b => b = a) (fun _ _ => True).
Proof. intros -> s W. exists a, s. split; [reflexivity|]. auto 10 using ext_refl. Qed.

Lemma comp_assert c H : c = true -> comp H (assert_ c) (fun _ => True) (fun _ _ => True).
Proof. intros -> s W. exists tt, s. split; [reflexivity|]. auto 10 using ext_refl. Qed.

Lemma comp_wgo H : comp H ctx_wgo (fun b => b = false) (fun _ _ => True).
Proof. intros s W. exists (wgo s), s. split; [reflexivity|]. split; auto. split; [apply ext_refl|]. split; [apply W|auto]. Qed.

Lemma comp_len H : comp H ctx_len (fun _ => True) (fun _ _ => True).
Proof. intros s W. exists (alen s), s. split; [reflexivity|]. auto 10 using ext_refl. Qed.

Lemma comp_mapM {A B} (f : A -> M p B) (P : A -> B -> Prop) (Q : (cell -> Fp) -> B -> Prop) l : forall H,
  (forall x, In x l -> comp H (f x) (P x) (fun rho y => Q rho y)) ->
  comp H (mapM f l) (fun ys => Forall2 P l ys) (fun rho ys => Forall (Q rho) ys).
Proof.
  induction l as [|x l IH]; intros H HF; cbn [mapM].
  - apply comp_ret; auto.
  - eapply comp_bind; [apply HF; now left| |]; [auto|]. intros y Py.
    eapply comp_bind; [apply (IH H); intros; apply HF; now right| tauto |]. intros ys Pys.
    apply comp_ret; auto. intros rho [[? ?] ?]. auto.
Qed.

Lemma comp_iterM {A} (f : A -> M p unit) l : forall H,
  (forall x, In x l -> comp H (f x) (fun _ => True) (fun _ _ => True)) ->
  comp H (iterM f l) (fun _ => True) (fun _ _ => True).
Proof.
  induction l as [|x l IH]; intros H HF; cbn [iterM].
  - apply comp_ret; auto.
  - eapply comp_bind; [apply HF; now left|auto|]. intros [] _.
    eapply comp_weaken; [apply (IH H); intros; apply HF; now right| tauto | auto | auto].
Qed.

(** ** assigned values holding a known honest value *)
Definition hv (a : AV p) (v : Fp) : Prop := av_val a = ATriv v /\ av_cell a <> None.
Definition qh (q : qcell p) (v : Fp) : Prop := q_value q = Some v /\ q_cell_ok q.

Lemma qh_existing a v : hv a v -> qh (Existing a) v.
Proof. intros [H1 H2]. split; simpl; auto. unfold av_value. now rewrite H1. Qed.
Lemma qh_const c : qh (Constant c) c.
Proof. split; simpl; auto. Qed.
Lemma qh_witness c : qh (Witness c) c.
Proof. split; simpl; auto. Qed.
Lemma qh_adv q v : qh q v -> qadv q = ATriv v.
Proof. intros [H _]. now apply q_value_adv. Qed.
Lemma qh_cell q v : qh q v -> q_cell_ok q.
Proof. now intros [_ H]. Qed.
Lemma qh_val q v : qh q v -> q_value q = Some v.
Proof. now intros [H _]. Qed.
Lemma hv_val a v : hv a v -> av_value a = Some v.
Proof. intros [H _]. unfold av_value. now rewrite H. Qed.
Lemma hv_ok rho a v : hv a v -> av_ok rho a -> avs rho a = v.
Proof. intros [H _] [_ ->]. now rewrite H. Qed.

(** the value of a region cell list *)
Definition qvals (l : list (qcell p)) (k : nat) : Fp := nth k (map (fun q => aeval (qadv q)) l) F0.

Lemma q_ok_adv rho q : q_ok rho q -> qsem rho q (aeval (qadv q)).
Proof. destruct q; simpl; auto. intros [_ H]. auto. Qed.

(** ** regions *)
(** fetch several cells of the region just assigned *)
Lemma sound_region_get l offs k :
  Forall (fun o => 0 <= o) offs -> (0 < k <= length l)%nat ->
  sound (bind (assign_region l offs) (fun _ => ctx_get (- Z.of_nat k)))
    (fun _ => True) (fun sg out => exists v, region_sem sg v l offs /\ avs sg out = v (length l - k)%nat).
Proof.
  intros HO Hk s a s' W H. apply bind_inv in H as (u & s1 & E1 & E2).
  apply assign_region_spec in E1 as (W1 & X1 & A1 & _ & _ & _ & _ & _ & S1); auto.
  apply (ctx_get_region s) with (l := map qadv l) in E2 as (-> & B1 & B2 & B3 & B4); auto;
    [|rewrite map_length; auto].
  split; auto. split; auto. split; auto. intros sg HS. apply S1 in HS as [_ HR].
  exists (rv sg s). split; auto. rewrite B4, map_length. reflexivity.
Qed.

Lemma sound_region l offs :
  Forall (fun o => 0 <= o) offs ->
  sound (assign_region l offs) (fun _ => True) (fun sg out => exists v, region_sem sg v l offs).
Proof.
  intros HO s a s' W H.
  apply assign_region_spec in H as (W1 & X1 & A1 & _ & _ & _ & _ & _ & S1); auto.
  split; auto. split; auto. split; auto. intros sg HS. apply S1 in HS as [_ HR]. eauto.
Qed.

Lemma sound_region_last l offs :
  Forall (fun o => 0 <= o) offs -> (0 < length l)%nat ->
  sound (assign_region_last l offs)
    (fun _ => True) (fun sg out => exists v, region_sem sg v l offs /\ avs sg out = v (length l - 1)%nat).
Proof.
  intros HO Hk. intros s a s' W H. unfold assign_region_last in H.
  apply (sound_region_get l offs 1 HO ltac:(lia) s a s' W). unfold bind in *.
  destruct (assign_region l offs s) as [[u s1]|]; [|discriminate]. rewrite <- ctx_last_get. exact H.
Qed.

Lemma sound_smart_get l offs eqs k :
  Forall (fun o => 0 <= o) offs -> Forall (fun e : Z * Z => 0 <= fst e /\ 0 <= snd e) eqs ->
  (0 < k <= length l)%nat ->
  sound (bind (assign_region_smart l offs eqs) (fun _ => ctx_get (- Z.of_nat k)))
    (fun _ => True) (fun sg out => exists v, region_sem sg v l offs /\
       (forall i j, In (Z.of_nat i, Z.of_nat j) eqs -> v i = v j) /\ avs sg out = v (length l - k)%nat).
Proof.
  intros HO HE Hk s a s' W H. apply bind_inv in H as (u & s1 & E1 & E2).
  apply assign_region_smart_spec in E1 as (W1 & X1 & A1 & _ & _ & _ & _ & S1); auto.
  apply (ctx_get_region s) with (l := map qadv l) in E2 as (-> & B1 & B2 & B3 & B4); auto;
    [|rewrite map_length; auto].
  split; auto. split; auto. split; auto. intros sg HS. apply S1 in HS as (_ & HR & HQ).
  exists (rv sg s). split; auto. split; auto. rewrite B4, map_length. reflexivity.
Qed.

Lemma sound_smart_last l offs eqs :
  Forall (fun o => 0 <= o) offs -> Forall (fun e : Z * Z => 0 <= fst e /\ 0 <= snd e) eqs ->
  (0 < length l)%nat ->
  sound (bind (assign_region_smart l offs eqs) (fun _ => ctx_last))
    (fun _ => True) (fun sg out => exists v, region_sem sg v l offs /\
       (forall i j, In (Z.of_nat i, Z.of_nat j) eqs -> v i = v j) /\ avs sg out = v (length l - 1)%nat).
Proof.
  intros HO HE Hk. intros s a s' W H.
  apply (sound_smart_get l offs eqs 1 HO HE ltac:(lia) s a s' W). unfold bind in *.
  destruct (assign_region_smart l offs eqs s) as [[u s1]|]; [|discriminate]. rewrite <- ctx_last_get. exact H.
Qed.

(** honest satisfaction of a region *)
Definition gates_ok (v : nat -> Fp) (offs : list Z) : Prop :=
  forall k, In (Z.of_nat k) offs -> (v k + v (k + 1)%nat * v (k + 2)%nat)%F = v (k + 3)%nat.

Lemma honest_region rho s s' l offs :
  ext s s' -> advice s' = advice s ++ map qadv l -> Agree rho s' -> Forall (q_ok rho) l ->
  (forall k, In (Z.of_nat k) offs -> (k + 3 < length l)%nat) ->
  gates_ok (qvals l) offs -> region_sem rho (rv rho s) l offs.
Proof.
  intros X A HA HF Hlen HG.
  assert (HV : forall k, (k < length l)%nat -> rv rho s k = qvals l k).
  { intros k Hk. unfold qvals.
    destruct (nth_error (map qadv l) k) as [v|] eqn:E.
    - rewrite (agree_rv rho s s' _ k v X A HA E).
      symmetry. apply nth_error_nth. rewrite <- map_map, nth_error_map, E. reflexivity.
    - apply nth_error_None in E. rewrite map_length in E. lia. }
  split.
  - intros i q Hn.
    assert (i < length l)%nat by (apply nth_error_Some; congruence).
    rewrite HV by auto. unfold qvals.
    erewrite nth_error_nth; [|rewrite nth_error_map, Hn; reflexivity].
    apply q_ok_adv. rewrite Forall_forall in HF. apply HF. eapply nth_error_In; eauto.
  - intros k Hk. specialize (Hlen k Hk). rewrite !HV by lia. apply HG; auto.
Qed.

Lemma qvals_nth l k q : nth_error l k = Some q -> qvals l k = aeval (qadv q).
Proof.
  intros H. unfold qvals. apply nth_error_nth. now rewrite nth_error_map, H.
Qed.

Lemma comp_region_get l offs k q :
  Forall q_cell_ok l -> (forall o, In o offs -> 0 <= o /\ o + 3 < Z.of_nat (length l)) ->
  (0 < k <= length l)%nat -> nth_error l (length l - k) = Some q -> gates_ok (qvals l) offs ->
  comp (fun rho => Forall (q_ok rho) l) (bind (assign_region l offs) (fun _ => ctx_get (- Z.of_nat k)))
    (fun out => av_val out = qadv q /\ av_cell out <> None) (fun rho out => av_ok rho out).
Proof.
  intros HF HO Hk Hq HG s W.
  destruct (assign_region_total l offs s W HF) as [s1 E1]; [intros o Ho; apply HO in Ho; lia|].
  pose proof E1 as E1'. apply assign_region_spec in E1' as (W1 & X1 & A1 & _ & _ & _ & _ & _ & S1); auto.
  2:{ rewrite Forall_forall. intros o Ho. apply HO in Ho. lia. }
  destruct (ctx_get_region_total s s1 (map qadv l) k A1) as [a Ea]; [rewrite map_length; auto|].
  exists a, s1. split; [unfold bind; rewrite E1; exact Ea|]. split; auto. split; auto.
  apply (ctx_get_region s) with (l := map qadv l) in Ea as (_ & B1 & B2 & B3 & B4); auto;
    [|rewrite map_length; auto].
  rewrite map_length, nth_error_map, Hq in B2. injection B2 as B2.
  split; [split; congruence|].
  intros rho HA HS HR. split; [|eapply av_in_ok; eauto].
  apply S1. split; auto. eapply honest_region; eauto.
  intros j Hj. apply HO in Hj. lia.
Qed.

Lemma comp_region_last l offs q :
  Forall q_cell_ok l -> (forall o, In o offs -> 0 <= o /\ o + 3 < Z.of_nat (length l)) ->
  (0 < length l)%nat -> nth_error l (length l - 1) = Some q -> gates_ok (qvals l) offs ->
  comp (fun rho => Forall (q_ok rho) l) (assign_region_last l offs)
    (fun out => av_val out = qadv q /\ av_cell out <> None) (fun rho out => av_ok rho out).
Proof.
  intros HF HO Hk Hq HG s W.
  destruct (comp_region_get l offs 1 q HF HO ltac:(lia) Hq HG s W) as (a & s' & E & R).
  exists a, s'. split; auto. unfold assign_region_last, bind in *.
  destruct (assign_region l offs s) as [[u s1]|]; [|discriminate]. now rewrite ctx_last_get.
Qed.

Lemma comp_region l offs :
  Forall q_cell_ok l -> (forall o, In o offs -> 0 <= o /\ o + 3 < Z.of_nat (length l)) ->
  gates_ok (qvals l) offs ->
  comp (fun rho => Forall (q_ok rho) l) (assign_region l offs) (fun _ => True) (fun _ _ => True).
Proof.
  intros HF HO HG s W.
  destruct (assign_region_total l offs s W HF) as [s1 E1]; [intros o Ho; apply HO in Ho; lia|].
  pose proof E1 as E1'. apply assign_region_spec in E1' as (W1 & X1 & A1 & _ & _ & _ & _ & _ & S1); auto.
  2:{ rewrite Forall_forall. intros o Ho. apply HO in Ho. lia. }
  exists tt, s1. do 4 (split; auto). intros rho HA HS HR. split; auto.
  apply S1. split; auto. eapply honest_region; eauto.
  intros j Hj. apply HO in Hj. lia.
Qed.

Lemma comp_smart_get l offs eqs k q :
  Forall q_cell_ok l -> (forall o, In o offs -> 0 <= o /\ o + 3 < Z.of_nat (length l)) ->
  Forall (fun e : Z * Z => 0 <= fst e /\ 0 <= snd e) eqs ->
  (forall i j, In (Z.of_nat i, Z.of_nat j) eqs -> (i < length l)%nat /\ (j < length l)%nat /\ qvals l i = qvals l j) ->
  (0 < k <= length l)%nat -> nth_error l (length l - k) = Some q -> gates_ok (qvals l) offs ->
  comp (fun rho => Forall (q_ok rho) l) (bind (assign_region_smart l offs eqs) (fun _ => ctx_get (- Z.of_nat k)))
    (fun out => av_val out = qadv q /\ av_cell out <> None) (fun rho out => av_ok rho out).
Proof.
  intros HF HO HE HQ Hk Hq HG s W.
  destruct (assign_region_smart_total l offs eqs s W HF) as [s1 E1]; [intros o Ho; apply HO in Ho; lia|auto|].
  pose proof E1 as E1'. apply assign_region_smart_spec in E1' as (W1 & X1 & A1 & _ & _ & _ & _ & S1); auto.
  2:{ rewrite Forall_forall. intros o Ho. apply HO in Ho. lia. }
  destruct (ctx_get_region_total s s1 (map qadv l) k A1) as [a Ea]; [rewrite map_length; auto|].
  exists a, s1. split; [unfold bind; rewrite E1; exact Ea|]. split; auto. split; auto.
  apply (ctx_get_region s) with (l := map qadv l) in Ea as (_ & B1 & B2 & B3 & B4); auto;
    [|rewrite map_length; auto].
  rewrite map_length, nth_error_map, Hq in B2. injection B2 as B2.
  split; [split; congruence|].
  intros rho HA HS HR. split; [|eapply av_in_ok; eauto].
  apply S1. split; auto.
  assert (HRS : region_sem rho (rv rho s) l offs).
  { eapply honest_region; eauto. intros j Hj. apply HO in Hj. lia. }
  split; auto. intros i j Hij. apply HQ in Hij as (Hi & Hj & Heq).
  assert (HV : forall k, (k < length l)%nat -> rv rho s k = qvals l k).
  { intros n Hn. unfold qvals.
    destruct (nth_error (map qadv l) n) as [v|] eqn:E.
    - rewrite (agree_rv rho s s1 _ n v X1 A1 HA E).
      symmetry. apply nth_error_nth. rewrite <- map_map, nth_error_map, E. reflexivity.
    - apply nth_error_None in E. rewrite map_length in E. lia. }
  rewrite !HV; auto.
Qed.

Lemma comp_smart_last l offs eqs q :
  Forall q_cell_ok l -> (forall o, In o offs -> 0 <= o /\ o + 3 < Z.of_nat (length l)) ->
  Forall (fun e : Z * Z => 0 <= fst e /\ 0 <= snd e) eqs ->
  (forall i j, In (Z.of_nat i, Z.of_nat j) eqs -> (i < length l)%nat /\ (j < length l)%nat /\ qvals l i = qvals l j) ->
  (0 < length l)%nat -> nth_error l (length l - 1) = Some q -> gates_ok (qvals l) offs ->
  comp (fun rho => Forall (q_ok rho) l) (bind (assign_region_smart l offs eqs) (fun _ => ctx_last))
    (fun out => av_val out = qadv q /\ av_cell out <> None) (fun rho out => av_ok rho out).
Proof.
  intros HF HO HE HQ Hk Hq HG s W.
  destruct (comp_smart_get l offs eqs 1 q HF HO HE HQ ltac:(lia) Hq HG s W) as (a & s' & E & R).
  exists a, s'. split; auto. unfold bind in *.
  destruct (assign_region_smart l offs eqs s) as [[u s1]|]; [|discriminate]. now rewrite ctx_last_get.
Qed.

(** ** the other primitives *)
Lemma sound_constrain_equal a b : sound (constrain_equal a b) (fun _ => True) (fun sg _ => avs sg a = avs sg b).
Proof.
  intros s u s' W H. apply constrain_equal_spec in H as (W1 & X1 & A1 & S1); auto.
  do 3 (split; auto). intros sg HS. apply S1 in HS. tauto.
Qed.
Lemma comp_constrain_equal a b v : hv a v -> hv b v ->
  comp (fun rho => av_ok rho a /\ av_ok rho b) (constrain_equal a b) (fun _ => True) (fun _ _ => True).
Proof.
  intros Ha Hb s W. destruct (constrain_equal_total a b s W) as [s' E]; [apply Ha|apply Hb|].
  exists tt, s'. split; auto. apply constrain_equal_spec in E as (W1 & X1 & A1 & S1); auto.
  do 3 (split; auto). intros rho HA HS [Oa Ob]. split; auto. apply S1. split; auto.
  rewrite (hv_ok _ _ _ Ha Oa), (hv_ok _ _ _ Hb Ob). reflexivity.
Qed.

Lemma sound_assert_is_const a c : sound (assert_is_const a c) (fun _ => True) (fun sg _ => avs sg a = c).
Proof.
  intros s u s' W H. apply assert_is_const_spec in H as (W1 & X1 & A1 & S1); auto.
  do 3 (split; auto). intros sg HS. apply S1 in HS. tauto.
Qed.
Lemma comp_assert_is_const a c : hv a c ->
  comp (fun rho => av_ok rho a) (assert_is_const a c) (fun _ => True) (fun _ _ => True).
Proof.
  intros Ha s W. destruct (assert_is_const_total a c s W) as [s' E]; [apply Ha|].
  exists tt, s'. split; auto. apply assert_is_const_spec in E as (W1 & X1 & A1 & S1); auto.
  do 3 (split; auto). intros rho HA HS Oa. split; auto. apply S1. split; auto.
  apply (hv_ok _ _ _ Ha Oa).
Qed.

Lemma sound_add_cell_to_lookup a :
  sound (add_cell_to_lookup a) (fun _ => True) (fun sg _ => 0 <= val (avs sg a) < 2 ^ Z.of_nat lb).
Proof.
  intros s u s' W H. apply add_cell_to_lookup_spec in H as (W1 & X1 & A1 & S1); auto.
  do 3 (split; auto). intros sg HS. apply S1 in HS. tauto.
Qed.
Lemma comp_add_cell_to_lookup a v : hv a v -> val v < 2 ^ Z.of_nat lb ->
  comp (fun rho => av_ok rho a) (add_cell_to_lookup a) (fun _ => True) (fun _ _ => True).
Proof.
  intros Ha Hv s W. destruct (add_cell_to_lookup_total a s) as [s' E].
  exists tt, s'. split; auto. apply add_cell_to_lookup_spec in E as (W1 & X1 & A1 & S1); auto.
  do 3 (split; auto). intros rho HA HS Oa. split; auto. apply S1. split; auto.
  rewrite (hv_ok _ _ _ Ha Oa). pose proof (val_bounds p v). lia.
Qed.

Lemma sound_load_witness w : sound (load_witness w) (fun _ => True) (fun _ _ => True).
Proof. intros s u s' W H. apply load_witness_spec in H as (W1 & X1 & _); auto. Qed.
Lemma comp_load_witness w H : comp H (load_witness w) (fun a => hv a w) (fun rho a => av_ok rho a).
Proof.
  intros s W. destruct (load_witness_total w s W) as (a & s' & E). exists a, s'. split; auto.
  apply load_witness_spec in E as (W1 & X1 & A1 & I1 & C1 & V1 & S1); auto.
  do 2 (split; auto). split; [split; congruence|]. intros rho HA HS _. split; [apply S1; auto|]. eapply av_in_ok; eauto.
Qed.
Lemma sound_load_constant c : sound (load_constant c) (fun _ => True) (fun sg a => avs sg a = c).
Proof.
  intros s u s' W H. apply load_constant_spec in H as (W1 & X1 & _ & _ & _ & _ & S1); auto.
  do 3 (split; auto). intros sg HS. apply S1 in HS. tauto.
Qed.
Lemma comp_load_constant c H : comp H (load_constant c) (fun a => hv a c) (fun rho a => av_ok rho a).
Proof.
  intros s W. destruct (load_constant_total c s W) as (a & s' & E). exists a, s'. split; auto.
  apply load_constant_spec in E as (W1 & X1 & A1 & I1 & C1 & V1 & S1); auto.
  do 2 (split; auto). split; [split; congruence|]. intros rho HA HS _.
  pose proof (av_in_ok _ _ _ I1 HA) as O. split; auto. apply S1. split; auto.
  destruct O as [_ ->]. now rewrite V1.
Qed.
Lemma sound_load_zero : sound load_zero (fun _ => True) (fun sg a => avs sg a = F0).
Proof.
  intros s u s' W H. apply load_zero_spec in H as (W1 & X1 & _ & _ & S1 & _); auto.
  do 3 (split; auto). intros sg HS. eauto.
Qed.
Lemma comp_load_zero H : comp H load_zero (fun a => hv a F0) (fun rho a => av_ok rho a).
Proof.
  intros s W. destruct (load_zero_total s W) as (a & s' & E). exists a, s'. split; auto.
  apply load_zero_spec in E as (W1 & X1 & I1 & V1 & S1 & S2); auto.
  do 2 (split; auto). split; [split; auto; destruct I1 as (i & -> & _); congruence|]. intros rho HA HS _.
  split; auto. eapply av_in_ok; eauto.
Qed.
Lemma sound_load_constants cs : sound (load_constants cs) (fun l => length l = length cs)
   (fun sg l => map (avs sg) l = cs).
Proof.
  eapply sound_weaken.
  - apply (sound_mapM (load_constant (p:=p)) (fun _ _ => True) (fun sg c a => avs sg a = c)).
    intros x _. apply sound_load_constant.
  - intros l H. symmetry. eapply Forall2_len; eauto.
  - intros sg l _ H. induction H; simpl; congruence.
Qed.

(** prefix rules for pure steps *)
Lemma sound_lift_bind {A B} (o : option A) (f : A -> M p B) P Q :
  (forall a, o = Some a -> sound (f a) P Q) -> sound (bind (lift o) f) P Q.
Proof.
  intros H s b s' W E. apply bind_inv in E as (a & s1 & E1 & E2). apply lift_inv in E1 as [E1 ->].
  eapply H; eauto.
Qed.
Lemma sound_assert_bind {B} c (f : unit -> M p B) P Q :
  (c = true -> sound (f tt) P Q) -> sound (bind (assert_ c) f) P Q.
Proof.
  intros H s b s' W E. apply bind_inv in E as ([] & s1 & E1 & E2). apply assert_inv in E1 as [E1 ->].
  eapply H; eauto.
Qed.
Lemma sound_wgo_bind {B} (f : bool -> M p B) P Q :
  sound (f false) P Q -> sound (bind ctx_wgo f) P Q.
Proof.
  intros H s b s' W E. unfold bind, ctx_wgo in E. rewrite (wf_wgo _ W) in E. eapply H; eauto.
Qed.
Lemma comp_lift_bind {A B} (o : option A) (f : A -> M p B) a H P Q :
  o = Some a -> comp H (f a) P Q -> comp H (bind (lift o) f) P Q.
Proof. intros -> HC s W. destruct (HC s W) as (b & s' & E & R). exists b, s'. split; auto. Qed.
Lemma comp_assert_bind {B} c (f : unit -> M p B) H P Q :
  c = true -> comp H (f tt) P Q -> comp H (bind (assert_ c) f) P Q.
Proof. intros -> HC s W. destruct (HC s W) as (b & s' & E & R). exists b, s'. split; auto. Qed.
Lemma comp_wgo_bind {B} (f : bool -> M p B) H P Q :
  comp H (f false) P Q -> comp H (bind ctx_wgo f) P Q.
Proof.
  intros HC s W. destruct (HC s W) as (b & s' & E & R). exists b, s'. split; auto.
  unfold bind, ctx_wgo. now rewrite (wf_wgo _ W).
Qed.
Lemma sound_ret' {A} (a : A) (P : A -> Prop) (Q : (cell -> Fp) -> A -> Prop) :
  P a -> (forall sg, Q sg a) -> sound (ret a) P Q.
Proof. apply sound_ret. Qed.

(** stronger bind rule, when the continuation needs a state fact (row offsets) is handled by unfolding *)
Lemma sound_conj {A} (m : M p A) P1 Q1 P2 Q2 : sound m P1 Q1 -> sound m P2 Q2 ->
  sound m (fun a => P1 a /\ P2 a) (fun sg a => Q1 sg a /\ Q2 sg a).
Proof.
  intros H1 H2 s a s' W E. destruct (H1 _ _ _ W E) as (A1 & A2 & A3 & A4).
  destruct (H2 _ _ _ W E) as (B1 & B2 & B3 & B4). auto 10.
Qed.

(** ** folds *)
Lemma sound_foldM {A B} (f : B -> A -> M p B) (P : list A -> B -> Prop) (Q : list A -> (cell -> Fp) -> B -> Prop) l :
  forall b0, P [] b0 ->
  (forall done x rest b, l = done ++ x :: rest -> P done b ->
     sound (f b x) (P (done ++ [x])) (fun sg b' => Q done sg b -> Q (done ++ [x]) sg b')) ->
  sound (foldM f l b0) (P l) (fun sg b => Q [] sg b0 -> Q l sg b).
Proof.
  intros b0 HP HF.
  assert (HG : forall rest done b, l = done ++ rest -> P done b ->
     sound (foldM f rest b) (P l) (fun sg b' => Q done sg b -> Q l sg b')).
  { induction rest as [|x rest IH]; intros done b El Pb; cbn [foldM].
    - rewrite app_nil_r in El. subst done. apply sound_ret; auto.
    - eapply sound_bind; [eapply HF; eauto|]. intros b' Pb'.
      eapply sound_weaken; [apply (IH (done ++ [x]) b'); auto; rewrite <- app_assoc; exact El|auto|].
      cbn. intros sg a _ H1 H2 H3. auto. }
  apply (HG l [] b0); auto.
Qed.

Lemma comp_foldM {A B} (f : B -> A -> M p B) (H : (cell -> Fp) -> Prop)
   (P : list A -> B -> Prop) (Q : list A -> (cell -> Fp) -> B -> Prop) l :
  forall b0, P [] b0 ->
  (forall done x rest b, l = done ++ x :: rest -> P done b ->
     comp (fun rho => H rho /\ Q done rho b) (f b x) (P (done ++ [x])) (Q (done ++ [x]))) ->
  comp (fun rho => H rho /\ Q [] rho b0) (foldM f l b0) (P l) (Q l).
Proof.
  intros b0 HP HF.
  assert (HG : forall rest done b, l = done ++ rest -> P done b ->
     comp (fun rho => H rho /\ Q done rho b) (foldM f rest b) (P l) (Q l)).
  { induction rest as [|x rest IH]; intros done b El Pb; cbn [foldM].
    - rewrite app_nil_r in El. subst done. apply comp_ret; auto. tauto.
    - eapply comp_bind; [eapply HF; eauto|auto|]. intros b' Pb'.
      eapply comp_weaken; [apply (IH (done ++ [x]) b'); auto; rewrite <- app_assoc; exact El| |auto|auto].
      cbn. tauto. }
  apply (HG l [] b0); auto.
Qed.

(** ** two reads after one region *)
Lemma sound_region_get2 {B} l offs k1 k2 (f : AV p -> AV p -> M p B) P (Q : (cell -> Fp) -> B -> Prop) :
  Forall (fun o => 0 <= o) offs -> (0 < k1 <= length l)%nat -> (0 < k2 <= length l)%nat ->
  (forall a b, sound (f a b) P (fun sg r => (exists v, region_sem sg v l offs /\
       avs sg a = v (length l - k1)%nat /\ avs sg b = v (length l - k2)%nat) -> Q sg r)) ->
  sound (bind (assign_region l offs) (fun _ => bind (ctx_get (- Z.of_nat k1)) (fun a =>
     bind (ctx_get (- Z.of_nat k2)) (fun b => f a b)))) P Q.
Proof.
  intros HO H1 H2 HF s r s' W H. apply bind_inv in H as (u & s1 & E1 & E2).
  apply assign_region_spec in E1 as (W1 & X1 & A1 & _ & _ & _ & _ & _ & S1); auto.
  apply bind_inv in E2 as (a & s2 & E2 & E3). apply bind_inv in E3 as (b & s3 & E3 & E4).
  apply (ctx_get_region s) with (l := map qadv l) in E2 as (-> & B1 & B2 & B3 & B4); auto; [|rewrite map_length; auto].
  apply (ctx_get_region s) with (l := map qadv l) in E3 as (-> & C1 & C2 & C3 & C4); auto; [|rewrite map_length; auto].
  destruct (HF a b _ _ _ W1 E4) as (W4 & X4 & P4 & Q4). split; auto. split; [eapply ext_trans; eauto|].
  split; auto. intros sg HS. apply Q4; auto. exists (rv sg s).
  apply (sat_mono _ _ _ _ X4) in HS. apply S1 in HS as [_ HR]. split; auto. rewrite B4, C4, map_length. auto.
Qed.
Lemma sound_smart_get2 {B} l offs eqs k1 k2 (f : AV p -> AV p -> M p B) P (Q : (cell -> Fp) -> B -> Prop) :
  Forall (fun o => 0 <= o) offs -> Forall (fun e : Z * Z => 0 <= fst e /\ 0 <= snd e) eqs ->
  (0 < k1 <= length l)%nat -> (0 < k2 <= length l)%nat ->
  (forall a b, sound (f a b) P (fun sg r => (exists v, region_sem sg v l offs /\
       (forall i j, In (Z.of_nat i, Z.of_nat j) eqs -> v i = v j) /\
       avs sg a = v (length l - k1)%nat /\ avs sg b = v (length l - k2)%nat) -> Q sg r)) ->
  sound (bind (assign_region_smart l offs eqs) (fun _ => bind (ctx_get (- Z.of_nat k1)) (fun a =>
     bind (ctx_get (- Z.of_nat k2)) (fun b => f a b)))) P Q.
Proof.
  intros HO HE H1 H2 HF s r s' W H. apply bind_inv in H as (u & s1 & E1 & E2).
  apply assign_region_smart_spec in E1 as (W1 & X1 & A1 & _ & _ & _ & _ & S1); auto.
  apply bind_inv in E2 as (a & s2 & E2 & E3). apply bind_inv in E3 as (b & s3 & E3 & E4).
  apply (ctx_get_region s) with (l := map qadv l) in E2 as (-> & B1 & B2 & B3 & B4); auto; [|rewrite map_length; auto].
  apply (ctx_get_region s) with (l := map qadv l) in E3 as (-> & C1 & C2 & C3 & C4); auto; [|rewrite map_length; auto].
  destruct (HF a b _ _ _ W1 E4) as (W4 & X4 & P4 & Q4). split; auto. split; [eapply ext_trans; eauto|].
  split; auto. intros sg HS. apply Q4; auto. exists (rv sg s).
  apply (sat_mono _ _ _ _ X4) in HS. apply S1 in HS as (_ & HR & HQ). split; auto. split; auto. rewrite B4, C4, map_length. auto.
Qed.

Lemma comp_smart_get2 {B} l offs eqs k1 k2 q1 q2 (f : AV p -> AV p -> M p B) (H : (cell -> Fp) -> Prop) P Q :
  Forall q_cell_ok l -> (forall o, In o offs -> 0 <= o /\ o + 3 < Z.of_nat (length l)) ->
  Forall (fun e : Z * Z => 0 <= fst e /\ 0 <= snd e) eqs ->
  (forall i j, In (Z.of_nat i, Z.of_nat j) eqs -> (i < length l)%nat /\ (j < length l)%nat /\ qvals l i = qvals l j) ->
  (0 < k1 <= length l)%nat -> nth_error l (length l - k1) = Some q1 ->
  (0 < k2 <= length l)%nat -> nth_error l (length l - k2) = Some q2 -> gates_ok (qvals l) offs ->
  (forall rho, H rho -> Forall (q_ok rho) l) ->
  (forall a b, av_val a = qadv q1 /\ av_cell a <> None -> av_val b = qadv q2 /\ av_cell b <> None ->
     comp (fun rho => H rho /\ av_ok rho a /\ av_ok rho b) (f a b) P Q) ->
  comp H (bind (assign_region_smart l offs eqs) (fun _ => bind (ctx_get (- Z.of_nat k1)) (fun a =>
     bind (ctx_get (- Z.of_nat k2)) (fun b => f a b)))) P Q.
Proof.
  intros HF HO HE HQ Hk1 Hq1 Hk2 Hq2 HG HH HC s W.
  destruct (comp_smart_get l offs eqs k1 q1 HF HO HE HQ Hk1 Hq1 HG s W) as (a & s1 & E1 & W1 & X1 & PA & R1).
  destruct (comp_smart_get l offs eqs k2 q2 HF HO HE HQ Hk2 Hq2 HG s W) as (b & s2 & E2 & W2 & X2 & PB & R2).
  apply bind_inv in E1 as (u & s3 & E0 & E1). apply bind_inv in E2 as (u' & s4 & E0' & E2).
  rewrite E0 in E0'. injection E0' as <- <-.
  pose proof E1 as F1'. pose proof E2 as F2'.
  apply ctx_get_spec in E1 as (-> & _). apply ctx_get_spec in E2 as (-> & _).
  destruct (HC a b PA PB s3 W1) as (r & s5 & E5 & W5 & X5 & P5 & R5).
  exists r, s5. split. { unfold bind. rewrite E0, F1', F2'. exact E5. }
  split; auto. split; [eapply ext_trans; eauto|]. split; auto. intros rho HA HS HR.
  destruct (R1 rho (agree_mono _ _ _ X5 HA) HS (HH _ HR)) as [S1 O1].
  destruct (R2 rho (agree_mono _ _ _ X5 HA) HS (HH _ HR)) as [_ O2]. apply R5; auto.
Qed.
Lemma comp_region_get2 {B} l offs k1 k2 q1 q2 (f : AV p -> AV p -> M p B) (H : (cell -> Fp) -> Prop) P Q :
  Forall q_cell_ok l -> (forall o, In o offs -> 0 <= o /\ o + 3 < Z.of_nat (length l)) ->
  (0 < k1 <= length l)%nat -> nth_error l (length l - k1) = Some q1 ->
  (0 < k2 <= length l)%nat -> nth_error l (length l - k2) = Some q2 -> gates_ok (qvals l) offs ->
  (forall rho, H rho -> Forall (q_ok rho) l) ->
  (forall a b, av_val a = qadv q1 /\ av_cell a <> None -> av_val b = qadv q2 /\ av_cell b <> None ->
     comp (fun rho => H rho /\ av_ok rho a /\ av_ok rho b) (f a b) P Q) ->
  comp H (bind (assign_region l offs) (fun _ => bind (ctx_get (- Z.of_nat k1)) (fun a =>
     bind (ctx_get (- Z.of_nat k2)) (fun b => f a b)))) P Q.
Proof.
  intros HF HO Hk1 Hq1 Hk2 Hq2 HG HH HC s W.
  destruct (comp_region_get l offs k1 q1 HF HO Hk1 Hq1 HG s W) as (a & s1 & E1 & W1 & X1 & PA & R1).
  destruct (comp_region_get l offs k2 q2 HF HO Hk2 Hq2 HG s W) as (b & s2 & E2 & W2 & X2 & PB & R2).
  apply bind_inv in E1 as (u & s3 & E0 & E1). apply bind_inv in E2 as (u' & s4 & E0' & E2).
  rewrite E0 in E0'. injection E0' as <- <-.
  pose proof E1 as F1'. pose proof E2 as F2'.
  apply ctx_get_spec in E1 as (-> & _). apply ctx_get_spec in E2 as (-> & _).
  destruct (HC a b PA PB s3 W1) as (r & s5 & E5 & W5 & X5 & P5 & R5).
  exists r, s5. split. { unfold bind. rewrite E0, F1', F2'. exact E5. }
  split; auto. split; [eapply ext_trans; eauto|]. split; auto. intros rho HA HS HR.
  destruct (R1 rho (agree_mono _ _ _ X5 HA) HS (HH _ HR)) as [S1 O1].
  destruct (R2 rho (agree_mono _ _ _ X5 HA) HS (HH _ HR)) as [_ O2]. apply R5; auto.
Qed.

(** states that do not change what matters *)
Lemma sound_ext_m {A} (m m' : M p A) P Q : (forall s, m s = m' s) -> sound m P Q -> sound m' P Q.
Proof. intros E H s a s' W R. rewrite <- E in R. eapply H; eauto. Qed.
Lemma comp_ext_m {A} (m m' : M p A) H P Q : (forall s, m s = m' s) -> comp H m P Q -> comp H m' P Q.
Proof. intros E HC s W. destruct (HC s W) as (a & s' & R & T). exists a, s'. rewrite <- E. auto. Qed.

Lemma sound_assoc {A B C} (m : M p A) (f : A -> M p B) (g : B -> M p C) P Q :
  sound (bind (bind m f) g) P Q -> sound (bind m (fun a => bind (f a) g)) P Q.
Proof. apply sound_ext_m. intros s. unfold bind. destruct (m s) as [[a s1]|]; reflexivity. Qed.
Lemma comp_assoc {A B C} (m : M p A) (f : A -> M p B) (g : B -> M p C) H P Q :
  comp H (bind (bind m f) g) P Q -> comp H (bind m (fun a => bind (f a) g)) P Q.
Proof. apply comp_ext_m. intros s. unfold bind. destruct (m s) as [[a s1]|]; reflexivity. Qed.
End Logic.
