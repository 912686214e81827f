(** EccProofs continued: double-and-add, indexing, curve membership, equality. *)
From Coq Require Import ZArith Znumtheory Lia List Bool Ring.
From Verif Require Import Field Spec Context ContextProofs Utils Logic Gate GateProofs ChainProofs IPProofs BitProofs PowProofs IPComp Derived
  Range RangeProofs RangeProofs2 RangeProofs3 RegionGets Calc CalcH RegionPrev RegionLast BigPrims BigNum BigInt BigSpec BigOps BigSel BigCmp BigSub BigCarry BigMod BigCrtNum BigCrt FpChip FpProofs FpProofs2 FpProofs3 FpField FpField2 FpField3 EcGroup SafeTypes Ecc EccProofs.
Import ListNotations.
Local Open Scope Z_scope.

Section EccProofs2.
Context {p : positive}.
Notation Fp := (F p).
Notation AV := (AV p).
Notation crt := (crt p).
Notation ecpt := (ecpt p).
Notation comparable := (comparable p).
Variables (lb : nat) (m : positive).
Notation env := (env (p:=p)).
Notation hcalc := (hcalc lb).
Hypothesis Hp : prime (Z.pos p).
Hypothesis Hlb : (1 <= lb < 64)%nat.
Hypothesis Hlb2 : (2 * lb <= CAPACITY p)%nat.
Hypothesis Hm : 1 < Z.pos m.
Add Ring Fring : (F_ring p) (morphism (F_morph p), constants [Fcst]).
Add Ring Fringm : (F_ring m) (morphism (F_morph m), constants [Fcst]).
Variables (ch : fpchip p) (n k : nat).
Hypothesis HN : fpchip_new m n k = Some ch.
Hypothesis HK : fp_params (p:=p) lb m n k.
Notation mz := (Z.pos m).
Notation Fm := (F m).
Notation M2 := (2 ^ Z.of_nat (bits mz)).
Notation W := (2 ^ Z.of_nat (n * k + NUM_BITS p)).
Notation frep := (frep (p:=p) m n).
Notation fred := (fred (p:=p) m n).
Notation fcan := (fcan (p:=p) m n).
Notation isk := (isk k).
Notation fit_mod := (fit_mod (p:=p) lb n k).
Notation fit_zero := (fit_zero (p:=p) lb n k).
Notation lg := (log2_ceil (Z.of_nat k)).
(** room for the formulas of the curve operations *)
Hypothesis HE1 : (Nat.max (lg + 2 * n + 5) (2 * n + bit_length (Z.of_nat k)) + lb + 2 <= CAPACITY p)%nat.
Hypothesis HE2 : 64 * (M2 * M2) < W.

Hypothesis Pm : prime mz.
Notation isp := (isp (p:=p) n k).
Notation pred := (pred (p:=p) m n).
Notation cpred := (cpred (p:=p) m n).
Let bnd_gen := bnd_gen lb m Hlb Hlb2 Hm n k HE1 HE2.
Let fred_frep' := fred_frep' (p:=p) lb m Hlb Hlb2 n.
Let HfitM := HfitM lb m Hlb Hlb2 n k HK HE1 HE2.
Let HfitZ := HfitZ lb m Hlb Hlb2 n k HE1 HE2.
Ltac inc1 := first [ assumption | apply incl_refl | (apply incl_appl; inc1) | (apply incl_appr; inc1) ].
Ltac inc := cbn [app];
  first [ assumption
        | (unfold ppre, cpre; inc1)
        | (apply ppre_x; unfold ppre; inc1) | (apply ppre_y; unfold ppre; inc1) 
        | (eapply cpre_incl; [eassumption|inc1])
        | (eapply ppre_incl; [eassumption|inc1])
        | (eapply cpre_incl; [apply ppre_x; eassumption|inc1]) | (eapply cpre_incl; [apply ppre_y; eassumption|inc1]) ].
Ltac bnd := pattern M2, W; apply bnd_gen; clear; intros; cbn [Z.abs]; lia.
Ltac fwd1 :=
  match goal with
  | H : _ /\ _ |- _ => lazymatch type of H with (_ <= _ < _)%nat => fail | _ => destruct H end
  | H : pred ?h ?e ?P ?x ?y |- _ =>
      lazymatch goal with _ : fred h e (px P) x, _ : fred h e (py P) y |- _ => fail | _ => pose proof (proj1 H); pose proof (proj2 H) end
  | A : fred ?h ?e ?c ?v |- _ =>
      lazymatch goal with _ : frep h e c M2 v |- _ => fail | _ => pose proof (fred_frep' h e c v A) end
  | H : forall h Ba Bb u v, frep h ?e ?a Ba u -> frep h ?e ?b Bb v -> _, A : frep ?h ?e ?a ?Ba ?u, B : frep ?h ?e ?b ?Bb ?v |- _ =>
      specialize (H h Ba Bb u v A B); cbv beta in H
  | H : forall h Ba Bb u v, frep h ?e ?a Ba u -> frep h ?e ?a Bb v -> _, A : frep ?h ?e ?a ?Ba ?u |- _ =>
      specialize (H h Ba Ba u u A A); cbv beta in H
  | H : forall h Ba u, frep h ?e ?a Ba u -> _, A : frep ?h ?e ?a ?Ba ?u |- _ => specialize (H h Ba u A); cbv beta in H
  | H : 8 * ?x < W -> _ |- _ => let X := fresh in assert (X : 8 * x < W) by bnd; specialize (H X); clear X
  end.
Ltac fwd := repeat fwd1.
Ltac nb lem := eapply h_bind; [eapply lem; try inc; try eassumption|]; cbv beta; [..|let c := fresh "c" in let K := fresh "K" in intros c K; cbn [app]].
Ltac nb0 lem := eapply h_bind; [eapply lem; try inc; try eassumption|]; cbv beta; [..|intros [] _; cbn [app]].


Section Ops.
Variables (L : list AV) (Pre : env -> Prop) (Hon : Prop).

Definition daa_ok (x0 y0 x1 y1 : Fm) : Prop := x0 <> x1 /\ forall s, (s * (x1 - x0) = y1 - y0)%F -> (s * s - x0 - x1)%F <> x0.
Lemma l_daa_body P Q x_0 (strict : bool) : ppre L P -> ppre L Q -> isp P -> isp Q -> (strict = true -> x_0 = Some (px P)) ->
  (Hon -> Pre hval -> exists x0 y0 x1 y1, pred True hval P x0 y0 /\ (strict = true -> fcan True hval (px P) x0) /\ pred True hval Q x1 y1 /\ daa_ok x0 y0 x1 y1) ->
  hcalc L Pre Hon (daa_body lb m ch x_0 P Q strict) isp
    (fun e o => forall h x0 y0 x1 y1, pred h e P x0 y0 -> (strict = true -> fcan h e (px P) x0) -> pred h e Q x1 y1 -> (h -> daa_ok x0 y0 x1 y1) ->
       exists s0 d, let x2 := (s0 * s0 - x0 - x1)%F in (s0 * (x1 - x0) = y1 - y0)%F /\ (strict = true -> x2 <> x0) /\
         (d * (x2 - x0) = y0 * of_Z m 2)%F /\
         pred h e o (fst (line3 m (- (s0 + d))%F x0 y0 x2)) (snd (line3 m (- (s0 + d))%F x0 y0 x2))) ptcells.
Proof.
  intros CP CQ KP KQ Hx0 HH. unfold daa_body. pose proof KP as [KPx KPy]. pose proof KQ as [KQx KQy].
  unfold fp_sub_no_carry, fp_scalar_mul_no_carry, fp_add_no_carry.
  nb (f_sub lb m Hlb Hlb2 n k).
  nb (f_sub lb m Hlb Hlb2 n k).
  nb (f_divide_unsafe lb m Hp Hlb Hlb2 Hm ch n k HN HK).
  { apply HfitZ. lia. }
  { auto. }
  { intros Hh [[HP R1] R2]. destruct (HH Hh HP) as (x0 & y0 & x1 & y1 & A1 & _ & A2 & [A3 _]).
    fwd. eexists; eexists; eexists; eexists. split; [eassumption|]. split; [eassumption|]. split; [bnd|]. right. now apply sub_nz'. }
  nb (f_mul_nc lb m Hp Hlb Hlb2 Hm ch n k HN HK).
  nb (f_sub lb m Hlb Hlb2 n k).
  nb (f_sub lb m Hlb Hlb2 n k).
  nb (f_carry lb m Hp Hlb Hlb2 Hm ch n k HN HK).
  { apply HfitM. lia. }
  { intros Hh [[[[[[HP R1] R2] R3] R4] R5] R6]. destruct (HH Hh HP) as (x0 & y0 & x1 & y1 & A1 & _ & A2 & [A3 A4]).
    fwd. destruct R3 as (s & S1 & S2). { intros _. right. now apply sub_nz'. } fwd. eexists; eexists; split; [eassumption|bnd]. }
  match goal with |- hcalc ?L ?Pre _ _ _ _ _ => set (L7 := L); set (Pre7 := Pre) end.
  assert (key : forall e, Pre7 e -> forall h x0 y0 x1 y1, pred h e P x0 y0 -> pred h e Q x1 y1 -> (h -> daa_ok x0 y0 x1 y1) ->
            exists s0, (s0 * (x1 - x0) = y1 - y0)%F /\ fred h e c1 s0 /\ fred h e c5 (s0 * s0 - x0 - x1)%F).
  { intros e [[[[[[[HP R1] R2] R3] R4] R5] R6] R7] h x0 y0 x1 y1 A1 A2 A3. fwd.
    destruct R3 as (s & S1 & S2). { intros Hh. right. apply sub_nz'. now apply A3. } fwd. eauto. }
  assert (HP7 : forall e, Pre7 e -> Pre e) by (unfold Pre7; tauto).
  eapply h_bind with (P1 := fun _ => True) (c1 := fun _ => [])
      (R1 := fun e _ => strict = true -> forall h x0 x2, fcan h e (px P) x0 -> fred h e c5 x2 -> x2 <> x0).
  { destruct strict.
    2:{ apply h_ret; auto; [intros x []|discriminate]. }
    specialize (Hx0 eq_refl). subst x_0.
    eapply h_bind; [eapply (f_enforce_lt lb m Hp Hlb Hlb2 Hm ch n k HN HK); [unfold L7; inc|eassumption|]|].
    { intros Hh HP. destruct (HH Hh (HP7 _ HP)) as (x0 & y0 & x1 & y1 & A1 & A1' & A2 & A3).
      destruct (key _ HP True x0 y0 x1 y1 A1 A2 (fun _ => A3)) as (s0 & _ & _ & S). eauto. }
    cbv beta. intros c6 ->. cbn [app]. apply h_lift_bind; [eauto|]. intros x0' E0. injection E0 as <-.
    eapply h_bind; [eapply (f_is_equal_unenforced lb m Hp Hlb Hlb2 n k HK); try eassumption; unfold L7; inc|].
    cbv beta. intros o _. cbn [app one].
    eapply h_post; [apply (h_assert_is_const lb _ _ _ o F0)| | |]; cbv beta; auto.
    - now left.
    - intros Hh [[HP R1] R2]. destruct (HH Hh (HP7 _ HP)) as (x0 & y0 & x1 & y1 & A1 & A1' & A2 & A3).
      destruct (key _ HP True x0 y0 x1 y1 A1 A2 (fun _ => A3)) as (s0 & S0 & _ & S). destruct A3 as [_ A4]. specialize (A4 s0 S0).
      rewrite (R2 True x0 (s0 * s0 - x0 - x1)%F); eauto.
      assert (x0 <> (s0 * s0 - x0 - x1)%F) as D by congruence. apply Feqb_neq in D. now rewrite D.
    - intros e _ _ [[HP R1] R2] E _ h x0 x2 A B ->.
      rewrite (R2 h x0 x0) in E; eauto. rewrite (proj2 (Feqb_eq _ x0 x0) eq_refl) in E. cbn in E. now apply (F1_neq_0 _ Hp) in E.
    - intros _ _ x []. }
  cbv beta. intros _ _. cbn [app].
  eapply h_sub with (L := L7) (Pre := fun e => (Pre7 e /\ (strict = true -> forall h x0 x2, fcan h e (px P) x0 -> fred h e c5 x2 -> x2 <> x0))) (Hon := Hon); auto using incl_refl.
  unfold L7.
  nb (f_smul (p:=p) lb m n k); [lia|].
  change (log2_ceil (Z.abs 2)) with 1%nat in *.
  nb (f_sub lb m Hlb Hlb2 n k).
  nb (f_divide_unsafe lb m Hp Hlb Hlb2 Hm ch n k HN HK).
  { apply HfitZ. lia. }
  { auto. }
  { intros Hh [[[HP _] R1] R2]. destruct (HH Hh (HP7 _ HP)) as (x0 & y0 & x1 & y1 & A1 & A1' & A2 & A3).
    destruct (key _ HP True x0 y0 x1 y1 A1 A2 (fun _ => A3)) as (s0 & S0 & S1 & S2). destruct A3 as [_ A4]. specialize (A4 s0 S0). clear HP.
    fwd. eexists; eexists; eexists; eexists. split; [eassumption|]. split; [eassumption|]. split; [bnd|]. right. apply sub_nz'. congruence. }
  nb (f_add lb m Hlb Hlb2 n k).
  nb (f_mul_nc lb m Hp Hlb Hlb2 Hm ch n k HN HK).
  nb (f_sub lb m Hlb Hlb2 n k).
  nb (f_sub lb m Hlb Hlb2 n k).
  nb (f_carry lb m Hp Hlb Hlb2 Hm ch n k HN HK).
  { apply HfitM. lia. }
  { intros Hh [[[[[[[[HP _] R1] R2] R3] R4] R5] R6] R7]. destruct (HH Hh (HP7 _ HP)) as (x0 & y0 & x1 & y1 & A1 & A1' & A2 & A3).
    destruct (key _ HP True x0 y0 x1 y1 A1 A2 (fun _ => A3)) as (s0 & S0 & S1 & S2). destruct A3 as [_ A4]. specialize (A4 s0 S0). clear HP.
    fwd. destruct R3 as (d & D1 & D2). { intros _. right. apply sub_nz'. congruence. } fwd. eexists; eexists; split; [eassumption|bnd]. }
  nb (f_sub lb m Hlb Hlb2 n k).
  nb (f_mul_nc lb m Hp Hlb Hlb2 Hm ch n k HN HK).
  nb (f_sub lb m Hlb Hlb2 n k).
  nb (f_carry lb m Hp Hlb Hlb2 Hm ch n k HN HK).
  { apply HfitM. lia. }
  { intros Hh [[[[[[[[[[[[HP _] R1] R2] R3] R4] R5] R6] R7] R8] R9] R10] R11]. destruct (HH Hh (HP7 _ HP)) as (x0 & y0 & x1 & y1 & A1 & A1' & A2 & A3).
    destruct (key _ HP True x0 y0 x1 y1 A1 A2 (fun _ => A3)) as (s0 & S0 & S1 & S2). destruct A3 as [_ A4]. specialize (A4 s0 S0). clear HP.
    fwd. destruct R3 as (d & D1 & D2). { intros _. right. apply sub_nz'. congruence. } fwd. eexists; eexists; split; [eassumption|bnd]. }
  apply h_ret; [now split|apply ppre_mk; inc|].
  intros e [[[[[[[[[[[[[HP RS] R1] R2] R3] R4] R5] R6] R7] R8] R9] R10] R11] R12] h x0 y0 x1 y1 A1 A1' A2 A3.
  destruct (key _ HP h x0 y0 x1 y1 A1 A2 A3) as (s0 & S0 & S1 & S2). clear HP. 
  assert (D0 : strict = true -> (s0 * s0 - x0 - x1)%F <> x0). { intros E. apply (RS E h x0); auto. } clear RS. 
  fwd. destruct R3 as (d & D1 & D2). { intros Hh. right. apply sub_nz'. destruct (A3 Hh) as [_ A4]. specialize (A4 s0 S0). congruence. } fwd.
  exists s0, d. cbv zeta. split; auto. split; auto. split; auto.
  unfold line3. cbn [fst snd]. split; cbn [px py].
  - replace (- (s0 + d) * - (s0 + d) - x0 - (s0 * s0 - x0 - x1))%F with ((s0 + d) * (s0 + d) - x0 - (s0 * s0 - x0 - x1))%F by ring. assumption.
  - match goal with H : fred h e ?c ?v |- fred h e ?c ?w => replace w with v by ring end. assumption.
Qed.

End Ops.
Section Ops2.
Variables (L : list AV) (Pre : env -> Prop) (Hon : Prop).
Lemma l_daa P Q (strict : bool) : ppre L (cpt P) -> ppre L (cpt Q) -> isp (cpt P) -> isp (cpt Q) ->
  (Hon -> Pre hval -> exists x0 y0 x1 y1, cpred True hval P x0 y0 /\ cpred True hval Q x1 y1 /\ daa_ok x0 y0 x1 y1) ->
  hcalc L Pre Hon (ec_double_and_add_unequal lb m ch P Q strict) isp
    (fun e o => forall h x0 y0 x1 y1, cpred h e P x0 y0 -> cpred h e Q x1 y1 -> (h -> daa_ok x0 y0 x1 y1) ->
       exists s0 d, let x2 := (s0 * s0 - x0 - x1)%F in (s0 * (x1 - x0) = y1 - y0)%F /\ (strict = true -> x0 <> x1 /\ x2 <> x0) /\
         (d * (x2 - x0) = y0 * of_Z m 2)%F /\
         pred h e o (fst (line3 m (- (s0 + d))%F x0 y0 x2)) (snd (line3 m (- (s0 + d))%F x0 y0 x2))) ptcells.
Proof.
  intros CP CQ KP KQ HH. unfold ec_double_and_add_unequal. pose proof KP as [KPx KPy]. pose proof KQ as [KQx KQy].
  eapply h_bind with (P1 := fun o => strict = true -> o = Some (px (cpt P))) (c1 := fun _ => [])
      (R1 := fun e _ => strict = true -> forall h x1 y1, cpred h e P x1 y1 -> fcan h e (px (cpt P)) x1 /\ forall x2 y2, cpred h e Q x2 y2 -> x1 <> x2).
  { destruct strict.
    2:{ apply h_ret; auto; try discriminate. intros x []. }
    eapply h_bind; [apply (l_strict_x lb m Hp Hlb Hlb2 Hm ch n k HN HK); auto|].
    { intros Hh HP. destruct (HH Hh HP) as (x1 & y1 & x2 & y2 & A & _). eauto. }
    cbv beta. intros c ->. cbn [app].
    eapply h_bind. { eapply h_sub; [apply (l_strict_x lb m Hp Hlb Hlb2 Hm ch n k HN HK L Pre Hon Q); auto| | |]; cbv beta; auto using incl_refl.
      - intros Hh HP. destruct (HH Hh HP) as (x1 & y1 & x2 & y2 & _ & A & _). eauto.
      - tauto. }
    cbv beta. intros c ->. cbn [app].
    eapply h_bind; [eapply (f_is_equal_unenforced lb m Hp Hlb Hlb2 n k HK); try inc; eassumption|].
    cbv beta. intros o _. cbn [app one].
    eapply h_bind; [apply (h_assert_is_const lb _ _ _ o F0)|]; cbv beta; auto.
    { now left. }
    { intros Hh [[[HP R1] R2] R3]. destruct (HH Hh HP) as (x1 & y1 & x2 & y2 & A & B & [D _]).
      rewrite (R3 True x1 x2); eauto. apply Feqb_neq in D. now rewrite D. }
    intros _ _. apply h_ret; auto. { intros x []. }
    intros e [[[[_ R1] R2] R3] E] _ h x1 y1 A. split; [eauto|]. intros x2 y2 B ->.
    rewrite (R3 h x2 x2) in E; eauto. rewrite (proj2 (Feqb_eq _ x2 x2) eq_refl) in E. cbn in E. now apply (F1_neq_0 _ Hp) in E. }
  cbv beta. intros x_0 Hx0. cbn [app].
  eapply h_post; [apply (l_daa_body _ _ _ (cpt P) (cpt Q) x_0 strict)| | |]; cbv beta; auto.
  - intros Hh [HP R1]. destruct (HH Hh HP) as (x0 & y0 & x1 & y1 & A & B & D). exists x0, y0, x1, y1.
    split; [exact (proj1 A)|]. split; [|split; [exact (proj1 B)|assumption]].
    intros E. destruct (R1 E True x0 y0 A) as [X _]. exact X.
  - intros e o _ [HP R1] R2 h x0 y0 x1 y1 A B D.
    destruct (R2 h x0 y0 x1 y1) as (s0 & d & S1 & S2 & S3 & S4); [exact (proj1 A)| |exact (proj1 B)|exact D|].
    { intros E. destruct (R1 E h x0 y0 A) as [X _]. exact X. }
    exists s0, d. cbv zeta. split; [exact S1|]. split; [|split; assumption].
    intros E. split; [|auto]. destruct (R1 E h x0 y0 A) as [_ X]. eauto.
  - intros o _. apply incl_appl; apply incl_refl.
Qed.
End Ops2.
End EccProofs2.
