(** [calc] with an extra precondition [Hon] that only the honest prover needs (it is not available to soundness). *)
From Coq Require Import ZArith Lia List Bool Znumtheory.
From Verif Require Import Field Context ContextProofs Spec Logic Utils Gate GateProofs ChainProofs IPProofs BitProofs PowProofs IPComp Derived Calc
  Range RangeProofs RangeProofs2 RangeProofs3.
Import ListNotations.
Local Open Scope Z_scope.

Section CalcH.
Context {p : positive}.
Notation Fp := (F p).
Notation AV := (AV p).
Variable lb : nat.
Notation sound := (sound lb).
Notation comp := (comp lb).
Notation env := (env (p:=p)).

Definition hcalc {B} (L : list AV) (Pre : env -> Prop) (Hon : Prop) (m : M p B) (P : B -> Prop) (R : env -> B -> Prop)
    (cs : B -> list AV) : Prop :=
  sound m P (fun sg o => Pre (avs sg) -> R (avs sg) o) /\
  (Forall good L -> Pre hval -> Hon ->
   comp (fun rho => Forall (av_ok rho) L) m
        (fun o => P o /\ Forall good (cs o) /\ R hval o) (fun rho o => Forall (av_ok rho) (cs o))).

Lemma calc_h {B} L (Pre : env -> Prop) (Hon : Prop) (m : M p B) P R cs : calc lb L Pre m P R cs -> hcalc L Pre Hon m P R cs.
Proof. intros [S C]. split; auto. Qed.

Lemma h_ret {B} L (Pre : env -> Prop) Hon (b : B) (P : B -> Prop) (R : env -> B -> Prop) cs :
  P b -> incl (cs b) L -> (forall e, Pre e -> R e b) -> hcalc L Pre Hon (ret b) P R cs.
Proof. intros. apply calc_h. now apply calc_ret. Qed.

Lemma h_bind {A B} L (Pre : env -> Prop) Hon (m : M p A) (f : A -> M p B) P1 R1 c1 P2 R2 c2 :
  hcalc L Pre Hon m P1 R1 c1 ->
  (forall a, P1 a -> hcalc (c1 a ++ L) (fun e => Pre e /\ R1 e a) Hon (f a) P2 R2 c2) ->
  hcalc L Pre Hon (bind m f) P2 R2 c2.
Proof.
  intros [S1 C1] H2. split.
  - eapply sound_bind; [exact S1|]. cbv beta. intros a Ha.
    eapply sound_weaken; [apply (proj1 (H2 a Ha))|auto|]. cbv beta. intros sg b Pb Hb HR Hpre. auto.
  - intros HG Hpre Hh. eapply comp_bind; [apply C1; auto|auto|]. cbv beta. intros a (Pa & Ga & Ra).
    eapply comp_weaken; [apply (proj2 (H2 a Pa))| | |]; cbv beta; auto.
    + apply Forall_app; auto.
    + intros rho [? ?]. apply Forall_app; auto.
Qed.

Lemma h_weaken {B} L L' (Pre Pre' : env -> Prop) (Hon Hon' : Prop) (m : M p B) (P P' : B -> Prop) (R R' : env -> B -> Prop) cs cs' :
  hcalc L Pre Hon m P R cs -> incl L L' -> (forall e, Pre' e -> Pre e) -> (Hon' -> Pre' hval -> Hon) -> (forall b, P b -> P' b) ->
  (forall e b, P b -> Pre' e -> R e b -> R' e b) -> (forall b, P b -> incl (cs' b) (cs b ++ L')) ->
  hcalc L' Pre' Hon' m P' R' cs'.
Proof.
  intros [S C] HL HPre HHon HP HR HC. split.
  - eapply sound_weaken; [exact S|auto|]. cbv beta. auto.
  - intros HG Hpre Hh.
    assert (HG' : Forall good L) by (rewrite Forall_forall in *; auto).
    intros s W. destruct (C HG' (HPre _ Hpre) (HHon Hh Hpre) s W) as (b & s' & E & W' & X & (Pb & Gb & Rb) & K).
    exists b, s'. do 3 (split; auto). split.
    + split; auto. split; auto. specialize (HC b Pb). rewrite Forall_forall in *. intros a Ha.
      apply HC, in_app_or in Ha as [Ha|Ha]; auto.
    + intros rho HA HS HF.
      assert (HF' : Forall (av_ok rho) L) by (rewrite Forall_forall in *; auto).
      destruct (K rho HA HS HF') as [K1 K2]. split; auto.
      specialize (HC b Pb). rewrite Forall_forall in *. intros a Ha. apply HC, in_app_or in Ha as [Ha|Ha]; auto.
Qed.
(** change only the cell list, precondition and honest condition *)
Lemma h_sub {B} L L' (Pre Pre' : env -> Prop) (Hon Hon' : Prop) (m : M p B) P R cs :
  hcalc L Pre Hon m P R cs -> incl L L' -> (forall e, Pre' e -> Pre e) -> (Hon' -> Pre' hval -> Hon) ->
  hcalc L' Pre' Hon' m P R cs.
Proof. intros H ? ? ?. eapply h_weaken; eauto. intros b _ x Hx. apply in_or_app; auto. Qed.
Lemma h_post {B} L (Pre : env -> Prop) Hon (m : M p B) (P P' : B -> Prop) (R R' : env -> B -> Prop) cs cs' :
  hcalc L Pre Hon m P R cs -> (forall b, P b -> P' b) ->
  (forall e b, P b -> Pre e -> R e b -> R' e b) -> (forall b, P b -> incl (cs' b) (cs b ++ L)) ->
  hcalc L Pre Hon m P' R' cs'.
Proof. intros H ? ? ?. eapply h_weaken; eauto using incl_refl. Qed.

Lemma h_lift {A} L (Pre : env -> Prop) (Hon : Prop) (o : option A) :
  (Hon -> Pre hval -> Forall good L -> exists a, o = Some a) ->
  hcalc L Pre Hon (lift o) (fun a => o = Some a) (fun _ _ => True) (fun _ => []).
Proof.
  intros H. split.
  - eapply sound_weaken; [apply sound_lift|auto|auto].
  - intros HG Hp Hh. destruct (H Hh Hp HG) as [a E]. eapply comp_weaken; [apply (comp_lift lb o a (fun _ => True) E)| | |]; cbv beta; auto.
    intros b Hb. subst b. auto.
Qed.
Lemma h_assert L (Pre : env -> Prop) (Hon : Prop) b : (Hon -> Pre hval -> b = true) ->
  hcalc L Pre Hon (assert_ b) (fun _ => b = true) (fun _ _ => True) (fun _ => []).
Proof.
  intros H. split.
  - eapply sound_weaken; [apply sound_assert|auto|auto].
  - intros HG Hp Hh. specialize (H Hh Hp). eapply comp_weaken; [apply (comp_assert lb b (fun _ => True) H)| | |]; cbv beta; auto.
Qed.
Lemma h_lift_bind {A B} L (Pre : env -> Prop) (Hon : Prop) (o : option A) (f : A -> M p B) P R cs :
  (Hon -> Pre hval -> Forall good L -> exists a, o = Some a) -> (forall a, o = Some a -> hcalc L Pre Hon (f a) P R cs) -> hcalc L Pre Hon (bind (lift o) f) P R cs.
Proof.
  intros H1 H2. eapply h_bind; [now apply h_lift|]. cbv beta. intros a Ea. eapply h_sub; [apply (H2 a Ea)| | |]; cbv beta.
  - intros x Hx. exact Hx.
  - tauto.
  - tauto.
Qed.
Lemma h_assert_bind {B} L (Pre : env -> Prop) (Hon : Prop) b (f : unit -> M p B) P R cs :
  (Hon -> Pre hval -> b = true) -> (b = true -> hcalc L Pre Hon (f tt) P R cs) -> hcalc L Pre Hon (bind (assert_ b) f) P R cs.
Proof.
  intros H1 H2. eapply h_bind; [now apply h_assert|]. cbv beta. intros [] Ea. eapply h_sub; [apply (H2 Ea)| | |]; cbv beta.
  - intros x Hx. exact Hx.
  - tauto.
  - tauto.
Qed.

Lemma h_mapM {A B} L (Pre : env -> Prop) Hon (f : A -> M p B) P R cs l :
  (forall x, In x l -> hcalc L Pre Hon (f x) (P x) (fun e y => R e x y) cs) ->
  hcalc L Pre Hon (mapM f l) (fun ys => Forall2 P l ys) (fun e ys => Forall2 (R e) l ys) (fun ys => flat_map cs ys).
Proof.
  induction l as [|x l IH]; intros HF; cbn [mapM].
  - apply h_ret; auto. intros a [].
  - eapply h_bind; [apply HF; now left|]. cbv beta. intros y Py.
    eapply h_bind. { eapply h_sub; [apply IH; intros; apply HF; now right| | |]; cbv beta.
      - intros a Ha. apply in_or_app; auto.
      - intros e [? _]; auto.
      - auto. }
    cbv beta. intros ys Pys. apply h_ret; auto.
    + intros a Ha. cbn in Ha. apply in_app_or in Ha as [Ha|Ha]; apply in_or_app; [right; apply in_or_app|]; auto.
    + intros e [[? ?] ?]. auto.
Qed.
Lemma h_iterM {A} L (Pre : env -> Prop) Hon (f : A -> M p unit) (R : env -> A -> Prop) l :
  (forall x, In x l -> hcalc L Pre Hon (f x) (fun _ => True) (fun e _ => R e x) (fun _ => [])) ->
  hcalc L Pre Hon (iterM f l) (fun _ => True) (fun e _ => Forall (R e) l) (fun _ => []).
Proof.
  induction l as [|x l IH]; intros HF; cbn [iterM].
  - apply h_ret; auto. intros a [].
  - eapply h_bind; [apply HF; now left|]. cbv beta. intros [] _.
    eapply h_weaken; [apply IH; intros; apply HF; now right| | | | | |]; cbv beta.
    + intros a Ha. exact Ha.
    + intros e [? _]; auto.
    + auto.
    + auto.
    + intros e b _ [_ ?] ?. auto.
    + intros b _ a [].
Qed.

Lemma h_foldM {A B} L (Pre : env -> Prop) Hon (f : B -> A -> M p B) (I : list A -> B -> Prop) (J : env -> list A -> B -> Prop) cs l b0 :
  (forall done x rest b, l = done ++ x :: rest -> I done b ->
     hcalc (cs b ++ L) (fun e => Pre e /\ J e done b) Hon (f b x) (I (done ++ [x])) (fun e => J e (done ++ [x])) cs) ->
  I [] b0 -> (forall e, Pre e -> J e [] b0) -> incl (cs b0) L ->
  hcalc L Pre Hon (foldM f l b0) (I l) (fun e => J e l) cs.
Proof.
  intros HF HI HJ HC.
  enough (G : forall rest done b, l = done ++ rest -> I done b ->
     hcalc (cs b ++ L) (fun e => Pre e /\ J e done b) Hon (foldM f rest b) (I l) (fun e => J e l) cs).
  { eapply h_weaken; [apply (G l [] b0); auto| | | | | |]; cbv beta; auto.
    - intros a Ha. apply in_app_or in Ha as [Ha|Ha]; auto.
    - intros b _ a Ha. apply in_or_app; auto. }
  induction rest as [|x rest IH]; intros done b E Ib; cbn [foldM].
  - rewrite app_nil_r in E. subst. apply h_ret; auto.
    + intros a Ha. apply in_or_app; auto.
    + tauto.
  - eapply h_bind; [apply (HF done x rest b E Ib)|]. cbv beta. intros b' Ib'.
    eapply h_weaken; [apply (IH (done ++ [x]) b'); [now rewrite <- app_assoc|auto]| | | | | |]; cbv beta; auto.
    + intros a Ha. apply in_app_or in Ha as [Ha|Ha]; apply in_or_app; [left|right; apply in_or_app; right]; auto.
    + tauto.
    + intros b'' _ a Ha. apply in_or_app; auto.
Qed.

(** pairing two postconditions *)
Lemma h_pure {B} L (Pre : env -> Prop) Hon (m : M p B) (P P' : B -> Prop) R cs :
  hcalc L Pre Hon m P R cs -> (forall s b s', m s = Some (b, s') -> P' b) -> hcalc L Pre Hon m (fun b => P b /\ P' b) R cs.
Proof.
  intros [S C] H. split.
  - intros s b s' W E. destruct (S s b s' W E) as (? & ? & ? & ?). repeat (split; eauto).
  - intros HG Hp Hh s W. destruct (C HG Hp Hh s W) as (b & s' & E & W' & X & (Pb & Gb & Rb) & K).
    exists b, s'. do 3 (split; auto). split; eauto 6.
Qed.

(** ** primitives *)
Lemma h_constrain_equal L (Pre : env -> Prop) (Hon : Prop) a b : In a L -> In b L -> (Hon -> Pre hval -> hval a = hval b) ->
  hcalc L Pre Hon (constrain_equal a b) (fun _ => True) (fun e _ => e a = e b) (fun _ => []).
Proof.
  intros Ia Ib H. split.
  - eapply sound_weaken; [apply sound_constrain_equal|auto|auto].
  - intros HG Hp Hh. rewrite Forall_forall in HG. pose proof (HG _ Ia) as Ga. pose proof (HG _ Ib) as Gb. specialize (H Hh Hp).
    unfold good in *. rewrite <- H in Gb. eapply comp_weaken; [apply (comp_constrain_equal lb a b (hval a)); auto| | |]; cbv beta.
    + intros rho HF. rewrite Forall_forall in HF. auto.
    + auto.
    + auto.
Qed.
Lemma h_assert_is_const L (Pre : env -> Prop) (Hon : Prop) a c : In a L -> (Hon -> Pre hval -> hval a = c) ->
  hcalc L Pre Hon (assert_is_const a c) (fun _ => True) (fun e _ => e a = c) (fun _ => []).
Proof.
  intros Ia H. split.
  - eapply sound_weaken; [apply sound_assert_is_const|auto|auto].
  - intros HG Hp Hh. rewrite Forall_forall in HG. pose proof (HG _ Ia) as Ga. specialize (H Hh Hp).
    unfold good in *. rewrite H in Ga. eapply comp_weaken; [apply (comp_assert_is_const lb a c); auto| | |]; cbv beta.
    + intros rho HF. rewrite Forall_forall in HF. auto.
    + auto.
    + auto.
Qed.
Hypothesis Hp : prime (Z.pos p).
Hypothesis Hlb : (1 <= lb < 64)%nat.
Hypothesis Hlb2 : (2 * lb <= CAPACITY p)%nat.
Lemma h_is_zero L (Pre : env -> Prop) Hon a : In a L ->
  hcalc L Pre Hon (is_zero a) (fun _ => True) (fun e o => e o = fbool (Fis0 (e a))) one.
Proof.
  intros Ia. split.
  - eapply sound_weaken; [apply (is_zero_sound lb Hp)|auto|]. cbv beta. intros sg o _ H _. exact H.
  - intros HG _ _. rewrite Forall_forall in HG. pose proof (HG _ Ia) as Ga.
    eapply comp_weaken; [apply (is_zero_comp lb Hp a (hval a) Ga)| | |]; cbv beta.
    + intros rho HF. rewrite Forall_forall in HF. auto.
    + intros o Ho. split; auto. split; [constructor; eauto using hv_good|eauto using hv_hval].
    + intros rho o _ _ Ho. constructor; auto.
Qed.
Lemma h_range_check L (Pre : env -> Prop) (Hon : Prop) a n : In a L ->
  (Hon -> Pre hval -> (n <= CAPACITY p)%nat /\ val (hval a) < 2 ^ Z.of_nat n) ->
  hcalc L Pre Hon (range_check lb a n) (fun _ => True) (fun e _ => val (e a) < 2 ^ Z.of_nat n) (fun _ => []).
Proof.
  intros Ia H. split.
  - eapply sound_weaken; [apply (range_check_sound lb Hp Hlb Hlb2)|auto|]. cbv beta. auto.
  - intros HG Hpre Hh. destruct (H Hh Hpre) as [H1 H2]. rewrite Forall_forall in HG. pose proof (HG _ Ia) as Ga.
    eapply comp_weaken; [apply (range_check_comp lb Hp Hlb Hlb2 a (hval a) n Ga H1 H2)| | |]; cbv beta.
    + intros rho HF. rewrite Forall_forall in HF. auto.
    + auto.
    + auto.
Qed.
Lemma h_is_less_than L (Pre : env -> Prop) (Hon : Prop) a b n : qin L a -> qin L b ->
  (Hon -> Pre hval -> (pad_bits lb n + lb <= CAPACITY p)%nat /\ val (qe hval a) < 2 ^ Z.of_nat (pad_bits lb n) /\
     val (qe hval b) <= 2 ^ Z.of_nat (pad_bits lb n)) ->
  hcalc L Pre Hon (is_less_than lb a b n) (fun _ => True)
    (fun e o => val (qe e a) < 2 ^ Z.of_nat (pad_bits lb n) -> val (qe e b) <= 2 ^ Z.of_nat (pad_bits lb n) ->
                e o = fbool (val (qe e a) <? val (qe e b))) one.
Proof.
  intros Ia Ib H. split.
  - eapply sound_weaken; [apply (is_less_than_sound lb Hp Hlb Hlb2)|auto|]. cbv beta. intros sg o _ (x & y & Qx & Qy & K) _ H1 H2.
    assert (x = qe (avs sg) a) by (destruct a; cbn in *; try contradiction; auto).
    assert (y = qe (avs sg) b) by (destruct b; cbn in *; try contradiction; auto). subst. auto.
  - intros HG Hpre Hh. destruct (H Hh Hpre) as (H1 & H2 & H3).
    eapply comp_weaken; [apply (is_less_than_comp lb Hp Hlb Hlb2 a b (qe hval a) (qe hval b) n); eauto using qin_qh| | |]; cbv beta.
    + intros rho HF. split; eauto using qin_ok.
    + intros o Ho. split; auto. split; [constructor; eauto using hv_good|]. intros _ _. eauto using hv_hval.
    + intros rho o _ _ Ho. constructor; auto.
Qed.
End CalcH.
