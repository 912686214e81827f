(** Point operations of Ecc.v in terms of field elements. [h : Prop] as in FpField.v. *)
From Coq Require Import ZArith Znumtheory Lia List Bool Ring.
From Verif Require Import Field Spec Context ContextProofs Utils Logic Gate GateProofs ChainProofs IPProofs BitProofs PowProofs IPComp Derived
  Range RangeProofs RangeProofs2 RangeProofs3 RegionGets Calc CalcH RegionPrev RegionLast BigPrims BigNum BigInt BigSpec BigOps BigSel BigCmp BigSub BigCarry BigMod BigCrtNum BigCrt FpChip FpProofs FpProofs2 FpProofs3 FpField FpField2 FpField3 EcGroup SafeTypes Ecc.
Import ListNotations.
Local Open Scope Z_scope.

Section EccProofs.
Context {p : positive}.
Notation Fp := (F p).
Notation AV := (AV p).
Notation crt := (crt p).
Notation ecpt := (ecpt p).
Notation comparable := (comparable p).
Variables (lb : nat) (m : positive).
Notation env := (env (p:=p)).
Notation hcalc := (hcalc lb).
Hypothesis Hp : prime (Z.pos p).
Hypothesis Hlb : (1 <= lb < 64)%nat.
Hypothesis Hlb2 : (2 * lb <= CAPACITY p)%nat.
Hypothesis Hm : 1 < Z.pos m.
Add Ring Fring : (F_ring p) (morphism (F_morph p), constants [Fcst]).
Add Ring Fringm : (F_ring m) (morphism (F_morph m), constants [Fcst]).
Variables (ch : fpchip p) (n k : nat).
Hypothesis HN : fpchip_new m n k = Some ch.
Hypothesis HK : fp_params (p:=p) lb m n k.
Notation mz := (Z.pos m).
Notation Fm := (F m).
Notation M2 := (2 ^ Z.of_nat (bits mz)).
Notation W := (2 ^ Z.of_nat (n * k + NUM_BITS p)).
Notation frep := (frep (p:=p) m n).
Notation fred := (fred (p:=p) m n).
Notation fcan := (fcan (p:=p) m n).
Notation isk := (isk k).
Notation fit_mod := (fit_mod (p:=p) lb n k).
Notation fit_zero := (fit_zero (p:=p) lb n k).
Notation lg := (log2_ceil (Z.of_nat k)).
(** room for the formulas of the curve operations *)
Hypothesis HE1 : (Nat.max (lg + 2 * n + 5) (2 * n + bit_length (Z.of_nat k)) + lb + 2 <= CAPACITY p)%nat.
Hypothesis HE2 : 64 * (M2 * M2) < W.

Definition ptcells (P : ecpt) : list AV := ccells (px P) ++ ccells (py P).
Definition ppre (L : list AV) (P : ecpt) : Prop := incl (ptcells P) L.
Definition isp (P : ecpt) : Prop := isk (px P) n /\ isk (py P) n.
(** a point with carried coordinates of classes [x], [y] *)
Definition pred (h : Prop) (e : env) (P : ecpt) (x y : Fm) : Prop := fred h e (px P) x /\ fred h e (py P) y.

Lemma ppre_x L P : ppre L P -> cpre L (px P).
Proof. intros H x Hx. apply H, in_or_app; auto. Qed.
Lemma ppre_y L P : ppre L P -> cpre L (py P).
Proof. intros H x Hx. apply H, in_or_app; auto. Qed.
Lemma ppre_mk (L : list AV) cx cy : cpre L cx -> cpre L cy -> ppre L (mkPt cx cy).
Proof. intros H1 H2 x Hx. apply in_app_or in Hx as [Hx|Hx]; auto. Qed.
Lemma cpre_incl (L L' : list AV) c : cpre L c -> incl L L' -> cpre L' c.
Proof. intros H I x Hx. auto. Qed.
Lemma ppre_incl (L L' : list AV) c : ppre L c -> incl L L' -> ppre L' c.
Proof. intros H I x Hx. auto. Qed.

Lemma M2_facts : 1 <= M2 /\ M2 <= M2 * M2.
Proof. pose proof (m_le_M2 lb m Hlb Hlb2 Hm). split; [lia|]. nia. Qed.
Lemma fred_frep' h e c v : fred h e c v -> frep h e c M2 v.
Proof. apply (fred_frep lb m Hlb Hlb2). Qed.
Lemma HfitM b : (b <= lg + 2 * n + 4)%nat -> fit_mod b.
Proof. intros H. apply (fit_mod_simple lb m Hlb Hlb2 n k HK). lia. Qed.
Lemma HfitZ b : (b <= lg + 2 * n + 4)%nat -> fit_zero b.
Proof. intros H. apply (fit_zero_simple lb m Hlb Hlb2 n k). lia. Qed.

Ltac inc1 := first [ assumption | apply incl_refl | (apply incl_appl; inc1) | (apply incl_appr; inc1) ].
Ltac inc := cbn [app];
  first [ assumption
        | (unfold ppre, cpre; inc1)
        | (apply ppre_x; unfold ppre; inc1) | (apply ppre_y; unfold ppre; inc1) 
        | (eapply cpre_incl; [eassumption|inc1])
        | (eapply ppre_incl; [eassumption|inc1])
        | (eapply cpre_incl; [apply ppre_x; eassumption|inc1]) | (eapply cpre_incl; [apply ppre_y; eassumption|inc1]) ].
Lemma bnd_gen (Q : Z -> Z -> Prop) : (forall M w, 1 <= M -> M <= M * M -> 64 * (M * M) < w -> Q M w) -> Q M2 W.
Proof. intros H. apply H; auto; apply M2_facts. Qed.
Ltac bnd := pattern M2, W; apply bnd_gen; clear; intros; cbn [Z.abs]; lia.
Ltac fwd1 :=
  match goal with
  | H : _ /\ _ |- _ => lazymatch type of H with (_ <= _ < _)%nat => fail | _ => destruct H end
  | H : pred ?h ?e ?P ?x ?y |- _ =>
      lazymatch goal with _ : fred h e (px P) x, _ : fred h e (py P) y |- _ => fail | _ => pose proof (proj1 H); pose proof (proj2 H) end
  | A : fred ?h ?e ?c ?v |- _ =>
      lazymatch goal with _ : frep h e c M2 v |- _ => fail | _ => pose proof (fred_frep' h e c v A) end
  | H : forall h Ba Bb u v, frep h ?e ?a Ba u -> frep h ?e ?b Bb v -> _, A : frep ?h ?e ?a ?Ba ?u, B : frep ?h ?e ?b ?Bb ?v |- _ =>
      specialize (H h Ba Bb u v A B); cbv beta in H
  | H : forall h Ba Bb u v, frep h ?e ?a Ba u -> frep h ?e ?a Bb v -> _, A : frep ?h ?e ?a ?Ba ?u |- _ =>
      specialize (H h Ba Ba u u A A); cbv beta in H
  | H : forall h Ba u, frep h ?e ?a Ba u -> _, A : frep ?h ?e ?a ?Ba ?u |- _ => specialize (H h Ba u A); cbv beta in H
  | H : 8 * ?x < W -> _ |- _ => let X := fresh in assert (X : 8 * x < W) by bnd; specialize (H X); clear X
  end.
Ltac fwd := repeat fwd1.
Ltac nb lem := eapply h_bind; [eapply lem; try inc; try eassumption|]; cbv beta; [..|let c := fresh "c" in let K := fresh "K" in intros c K; cbn [app]].
Ltac nb0 lem := eapply h_bind; [eapply lem; try inc; try eassumption|]; cbv beta; [..|intros [] _; cbn [app]].

Section Ops.
Variables (L : list AV) (Pre : env -> Prop) (Hon : Prop).

Lemma l_line_out lam P Q : cpre L lam -> ppre L P -> ppre L Q -> isk lam n -> isp P -> isp Q ->
  (Hon -> Pre hval -> exists s x1 y1 x2 y2, fred True hval lam s /\ pred True hval P x1 y1 /\ pred True hval Q x2 y2) ->
  hcalc L Pre Hon (line_out lb ch lam P Q) isp
    (fun e o => forall h s x1 y1 x2 y2, fred h e lam s -> pred h e P x1 y1 -> pred h e Q x2 y2 ->
       pred h e o (fst (line3 m s x1 y1 x2)) (snd (line3 m s x1 y1 x2))) ptcells.
Proof.
  intros Cl CP CQ Kl [KPx KPy] [KQx KQy] HH. unfold line_out, fp_sub_no_carry.
  nb (f_mul_nc lb m Hp Hlb Hlb2 Hm ch n k HN HK).
  nb (f_sub lb m Hlb Hlb2 n k).
  nb (f_sub lb m Hlb Hlb2 n k).
  nb (f_carry lb m Hp Hlb Hlb2 Hm ch n k HN HK).
  { apply HfitM. lia. }
  { intros Hh HP. assert (HP0 : Pre hval) by tauto. destruct (HH Hh HP0) as (s & x1 & y1 & x2 & y2 & A1 & A2 & A3).
    fwd.
eexists; eexists; split; [eassumption|bnd]. }
  nb (f_sub lb m Hlb Hlb2 n k).
  nb (f_mul_nc lb m Hp Hlb Hlb2 Hm ch n k HN HK).
  nb (f_sub lb m Hlb Hlb2 n k).
  nb (f_carry lb m Hp Hlb Hlb2 Hm ch n k HN HK).
  { apply HfitM. lia. }
  { intros Hh HP. assert (HP0 : Pre hval) by tauto. destruct (HH Hh HP0) as (s & x1 & y1 & x2 & y2 & A1 & A2 & A3).
    fwd. eexists; eexists; split; [eassumption|bnd]. }
  apply h_ret; [now split| |].
  { apply ppre_mk.
    { idtac. inc. } inc. }
  intros e HP h s x1 y1 x2 y2 A1 A2 A3. fwd. unfold line3. cbn [fst snd]. split; assumption.
Qed.

(** an operand of a strict comparison: its x-coordinate is canonical if it is a strict point *)
Definition cpred (h : Prop) (e : env) (P : comparable) (x y : Fm) : Prop :=
  pred h e (cpt P) x y /\ match P with Strict P => fcan h e (px P) x | NonStrict _ => True end.

Lemma l_strict_x P : ppre L (cpt P) -> isp (cpt P) -> (Hon -> Pre hval -> exists x y, cpred True hval P x y) ->
  hcalc L Pre Hon (strict_x lb ch P) (fun c => c = px (cpt P)) (fun e c => forall h x y, cpred h e P x y -> fcan h e (px (cpt P)) x) (fun _ => []).
Proof.
  intros CP [Kx Ky] HH. destruct P as [P|P]; cbn [strict_x cpt] in *.
  - apply h_ret; auto. { intros x []. } intros e _ h x y [_ H]. exact H.
  - eapply h_post; [eapply (f_enforce_lt lb m Hp Hlb Hlb2 Hm ch n k HN HK); [inc|eassumption|]| | |]; cbv beta; auto.
    + intros Hh HP. destruct (HH Hh HP) as (x & y & [[A _] _]). eauto.
    + intros e c _ _ R h x y [[A _] _]. auto.
    + intros c _ x [].
Qed.
Lemma l_check P Q (strict : bool) : ppre L (cpt P) -> ppre L (cpt Q) -> isp (cpt P) -> isp (cpt Q) ->
  (Hon -> Pre hval -> exists x1 y1 x2 y2, cpred True hval P x1 y1 /\ cpred True hval Q x2 y2 /\ (strict = true -> x1 <> x2)) ->
  hcalc L Pre Hon (check_points_are_unequal lb ch P Q strict) (fun o => o = (cpt P, cpt Q))
    (fun e _ => forall h x1 y1 x2 y2, cpred h e P x1 y1 -> cpred h e Q x2 y2 -> strict = true -> x1 <> x2) (fun _ => []).
Proof.
  intros CP CQ [KPx KPy] [KQx KQy] HH. unfold check_points_are_unequal. destruct strict.
  - eapply h_bind with (P1 := fun _ => True) (c1 := fun _ => [])
      (R1 := fun e _ => forall h x1 y1 x2 y2, cpred h e P x1 y1 -> cpred h e Q x2 y2 -> x1 <> x2).
    2:{ cbv beta. intros [] _. apply h_ret; auto. { intros x []. } intros e [_ H] h x1 y1 x2 y2 A B _. eauto. }
    eapply h_bind; [apply l_strict_x; [auto|now split|]|].
    { intros Hh HP. destruct (HH Hh HP) as (x1 & y1 & x2 & y2 & A & _). eauto. }
    cbv beta. intros c ->. cbn [app].
    eapply h_bind. { eapply h_sub; [apply (l_strict_x Q); [auto|now split|]| | |]; cbv beta; auto using incl_refl.
      - intros Hh HP. destruct (HH Hh HP) as (x1 & y1 & x2 & y2 & _ & A & _). eauto.
      - tauto. }
    cbv beta. intros c ->. cbn [app].
    eapply h_bind; [eapply (f_is_equal_unenforced lb m Hp Hlb Hlb2 n k HK); try inc; eassumption|].
    cbv beta. intros o _. cbn [app one].
    eapply h_post; [apply (h_assert_is_const lb _ _ _ o F0)| | |]; cbv beta; auto.
    + now left.
    + intros Hh [[[HP R1] R2] R3]. destruct (HH Hh HP) as (x1 & y1 & x2 & y2 & A & B & D). specialize (D eq_refl).
      rewrite (R3 True x1 x2); eauto. apply Feqb_neq in D. now rewrite D.
    + intros e _ _ [[[_ R1] R2] R3] E h x1 y1 x2 y2 A B ->.
      rewrite (R3 h x2 x2) in E; eauto. replace (Feqb x2 x2) with true in E by (symmetry; now apply Feqb_eq). cbn in E.
      now apply (F1_neq_0 _ Hp) in E.
    + intros _ _ x [].
  - eapply h_bind; [apply (h_ret lb L Pre Hon tt (fun _ => True) (fun _ _ => True) (fun _ => [])); auto; intros x []|].
    cbv beta. intros _ _. apply h_ret; auto. { intros x []. } intros e _ h x1 y1 x2 y2 _ _ D. discriminate.
Qed.
End Ops.

Hypothesis Pm : prime mz.
Lemma sub_nz' (x y : Fm) : x <> y -> (y - x)%F <> F0.
Proof. intros H E. apply H. replace x with (y - (y - x))%F by ring. rewrite E. ring. Qed.

Section Ops2.
Variables (L : list AV) (Pre : env -> Prop) (Hon : Prop).

Lemma l_add_unequal P Q (strict : bool) : ppre L (cpt P) -> ppre L (cpt Q) -> isp (cpt P) -> isp (cpt Q) ->
  (Hon -> Pre hval -> exists x1 y1 x2 y2, cpred True hval P x1 y1 /\ cpred True hval Q x2 y2 /\ x1 <> x2) ->
  hcalc L Pre Hon (ec_add_unequal lb m ch P Q strict) isp
    (fun e o => forall h x1 y1 x2 y2, cpred h e P x1 y1 -> cpred h e Q x2 y2 -> (h -> x1 <> x2) ->
       (strict = true -> x1 <> x2) /\
       exists s, (s * (x2 - x1) = y2 - y1)%F /\ pred h e o (fst (line3 m s x1 y1 x2)) (snd (line3 m s x1 y1 x2))) ptcells.
Proof.
  intros CP CQ KP KQ HH. unfold ec_add_unequal.
  eapply h_bind; [apply l_check; auto|].
  { intros Hh HP. destruct (HH Hh HP) as (x1 & y1 & x2 & y2 & A & B & C). exists x1, y1, x2, y2. auto. }
  cbv beta. intros PQ ->. cbv iota beta. cbn [app]. pose proof KP as [KPx KPy]. pose proof KQ as [KQx KQy].
  unfold fp_sub_no_carry.
  nb (f_sub lb m Hlb Hlb2 n k).
  nb (f_sub lb m Hlb Hlb2 n k).
  nb (f_divide_unsafe lb m Hp Hlb Hlb2 Hm ch n k HN HK).
  { apply HfitZ. lia. }
  { auto. }
  { intros Hh HP. assert (HP0 : Pre hval) by tauto. destruct (HH Hh HP0) as (x1 & y1 & x2 & y2 & A1 & A2 & A3). destruct A1 as [A1 _], A2 as [A2 _].
    fwd. eexists; eexists; eexists; eexists. split; [eassumption|]. split; [eassumption|]. split; [bnd|]. right. now apply sub_nz'. }
  eapply h_post; [eapply l_line_out; try inc; try eassumption| | |]; cbv beta; auto.
  - intros Hh HP. destruct HP as [[[[HP0 R0] R1] R2] R3]. destruct (HH Hh HP0) as (x1 & y1 & x2 & y2 & A1 & A2 & A3). clear R0.
    destruct A1 as [A1 _], A2 as [A2 _]. pose proof A1. pose proof A2.
    fwd. destruct R3 as (s & S1 & S2). { intros _. right. now apply sub_nz'. } exists s, x1, y1, x2, y2. auto.
  - intros e o _ HP R h x1 y1 x2 y2 A1 A2 A3. destruct HP as [[[[HP0 R0] R1] R2] R3].
    split; [intros E; apply (R0 h x1 y1 x2 y2); auto|]. clear R0.
    destruct A1 as [A1 _], A2 as [A2 _]. pose proof A1 as A1'. pose proof A2 as A2'. fwd. destruct R3 as (s & S1 & S2). { intros Hh. right. apply sub_nz'. auto. }
    exists s. split; [auto|]. eapply R; eassumption.
  - intros o _. apply incl_appl, incl_refl.
Qed.
Lemma l_sub_unequal P Q (strict : bool) : ppre L (cpt P) -> ppre L (cpt Q) -> isp (cpt P) -> isp (cpt Q) ->
  (Hon -> Pre hval -> exists x1 y1 x2 y2, cpred True hval P x1 y1 /\ cpred True hval Q x2 y2 /\ x1 <> x2) ->
  hcalc L Pre Hon (ec_sub_unequal lb m ch P Q strict) isp
    (fun e o => forall h x1 y1 x2 y2, cpred h e P x1 y1 -> cpred h e Q x2 y2 -> (h -> x1 <> x2) ->
       (strict = true -> x1 <> x2) /\
       exists s, (s * (x2 - x1) = - y2 - y1)%F /\ pred h e o (fst (line3 m s x1 y1 x2)) (snd (line3 m s x1 y1 x2))) ptcells.
Proof.
  intros CP CQ KP KQ HH. unfold ec_sub_unequal.
  eapply h_bind; [apply l_check; auto|].
  { intros Hh HP. destruct (HH Hh HP) as (x1 & y1 & x2 & y2 & A & B & C). exists x1, y1, x2, y2. auto. }
  cbv beta. intros PQ ->. cbv iota beta. cbn [app]. pose proof KP as [KPx KPy]. pose proof KQ as [KQx KQy].
  unfold fp_sub_no_carry, fp_add_no_carry.
  nb (f_sub lb m Hlb Hlb2 n k).
  nb (f_add lb m Hlb Hlb2 n k).
  nb (f_neg_divide_unsafe lb m Hp Hlb Hlb2 Hm ch n k HN HK).
  { apply HfitZ. lia. }
  { auto. }
  { intros Hh HP. assert (HP0 : Pre hval) by tauto. destruct (HH Hh HP0) as (x1 & y1 & x2 & y2 & A1 & A2 & A3). destruct A1 as [A1 _], A2 as [A2 _].
    fwd. eexists; eexists; eexists; eexists. split; [eassumption|]. split; [eassumption|]. split; [bnd|]. right. now apply sub_nz'. }
  eapply h_post; [eapply l_line_out; try inc; try eassumption| | |]; cbv beta; auto.
  - intros Hh HP. destruct HP as [[[[HP0 R0] R1] R2] R3]. destruct (HH Hh HP0) as (x1 & y1 & x2 & y2 & A1 & A2 & A3). clear R0.
    destruct A1 as [A1 _], A2 as [A2 _]. pose proof A1. pose proof A2.
    fwd. destruct R3 as (s & S1 & S2). { intros _. right. now apply sub_nz'. } exists s, x1, y1, x2, y2. auto.
  - intros e o _ HP R h x1 y1 x2 y2 A1 A2 A3. destruct HP as [[[[HP0 R0] R1] R2] R3].
    split; [intros E; apply (R0 h x1 y1 x2 y2); auto|]. clear R0.
    destruct A1 as [A1 _], A2 as [A2 _]. pose proof A1 as A1'. pose proof A2 as A2'. fwd. destruct R3 as (s & S1 & S2). { intros Hh. right. apply sub_nz'. auto. }
    exists s. split; [rewrite S2; ring|]. eapply R; eassumption.
  - intros o _. apply incl_appl, incl_refl.
Qed.

Lemma l_double P : ppre L P -> isp P ->
  (Hon -> Pre hval -> exists x y, pred True hval P x y /\ y <> F0) -> 3 < mz ->
  hcalc L Pre Hon (ec_double lb m ch P) isp
    (fun e o => forall h x y, pred h e P x y -> (h -> y <> F0) ->
       exists s, (s * (y * of_Z m 2) = x * of_Z m 3 * x)%F /\ pred h e o (fst (line3 m s x y x)) (snd (line3 m s x y x))) ptcells.
Proof.
  intros CP KP HH H3. unfold ec_double. pose proof KP as [KPx KPy].
  assert (T : forall y : Fm, y <> F0 -> (y * of_Z m 2)%F <> F0).
  { intros y Hy E. apply (F_integral m Pm) in E as [E|E]; auto. now apply (of_Z_nz m 2) in E; [|lia]. }
  unfold fp_sub_no_carry, fp_scalar_mul_no_carry.
  nb (f_smul (p:=p) lb m n k); [lia|].
  nb (f_smul (p:=p) lb m n k); [lia|].
  nb (f_mul_nc lb m Hp Hlb Hlb2 Hm ch n k HN HK).
  change (log2_ceil (Z.abs 2)) with 1%nat in *. change (log2_ceil (Z.abs 3)) with 2%nat in *.
  nb (f_divide_unsafe lb m Hp Hlb Hlb2 Hm ch n k HN HK).
  { apply HfitZ. lia. }
  { auto. }
  { intros Hh [[[HP R1] R2] R3]. destruct (HH Hh HP) as (x & y & A1 & A2).
    fwd. eexists; eexists; eexists; eexists. split; [eassumption|]. split; [eassumption|]. split; [bnd|]. right. auto. }
  nb (f_mul_nc lb m Hp Hlb Hlb2 Hm ch n k HN HK).
  nb (f_smul (p:=p) lb m n k); [lia|].
  change (log2_ceil (Z.abs 2)) with 1%nat in *.
  nb (f_sub lb m Hlb Hlb2 n k).
  nb (f_carry lb m Hp Hlb Hlb2 Hm ch n k HN HK).
  { apply HfitM. lia. }
  { intros Hh [[[[[[[HP R1] R2] R3] R4] R5] R6] R7]. destruct (HH Hh HP) as (x & y & A1 & A2).
    fwd. destruct R4 as (s & S1 & S2). { auto. } fwd. eexists; eexists; split; [eassumption|bnd]. }
  nb (f_sub lb m Hlb Hlb2 n k).
  nb (f_mul_nc lb m Hp Hlb Hlb2 Hm ch n k HN HK).
  nb (f_sub lb m Hlb Hlb2 n k).
  nb (f_carry lb m Hp Hlb Hlb2 Hm ch n k HN HK).
  { apply HfitM. lia. }
  { intros Hh [[[[[[[[[[[HP R1] R2] R3] R4] R5] R6] R7] R8] R9] R10] R11]. destruct (HH Hh HP) as (x & y & A1 & A2).
    fwd. destruct R4 as (s & S1 & S2). { auto. } fwd. eexists; eexists; split; [eassumption|bnd]. }
  apply h_ret; [now split|apply ppre_mk; inc|].
  intros e [[[[[[[[[[[[HP R1] R2] R3] R4] R5] R6] R7] R8] R9] R10] R11] R12] h x y A1 A2. fwd.
  destruct R4 as (s & S1 & S2). { auto. } fwd. exists s. split; [exact S2|].
  unfold line3. cbn [fst snd]. replace (s * s - x - x)%F with (s * s - x * of_Z m 2)%F; [split; assumption|].
  change (of_Z m 2) with (of_Z m (1 + 1)). rewrite of_Z_add. change (of_Z m 1) with (F1 : Fm). ring.
Qed.

Lemma l_select P Q sel : ppre L P -> ppre L Q -> In sel L -> isp P -> isp Q ->
  hcalc L Pre Hon (ec_select P Q sel) isp
    (fun e o => forall h x1 y1 x2 y2 (s : bool), e sel = fbool s -> pred h e P x1 y1 -> pred h e Q x2 y2 ->
       pred h e o (if s then x1 else x2) (if s then y1 else y2)) ptcells.
Proof.
  intros CP CQ Hs [KPx KPy] [KQx KQy]. unfold ec_select.
  nb (f_select lb m Hp n k).
  nb (f_select lb m Hp n k). { apply in_or_app. now right. }
  apply h_ret; [now split|apply ppre_mk; inc|].
  intros e [[_ R1] R2] h x1 y1 x2 y2 s E [A1 A2] [B1 B2]. split; cbn [px py]; [eapply R1|eapply R2]; eassumption.
Qed.
Lemma fred_hon h e c v : fred h e c v -> h -> e = hval.
Proof. intros (z & _ & _ & _ & H) Hh. now apply H in Hh. Qed.
Lemma l_load_const a : hcalc L Pre Hon (fp_load_constant m ch a) (fun c => isk c n) (fun e c => forall h : Prop, (h -> e = hval) -> fred h e c a) ccells.
Proof.
  eapply h_post; [apply (f_load_constant lb m Hp Hlb Hlb2 Hm ch n k HN HK)| | |]; cbv beta; auto.
  - intros e c _ _ R h Hh. apply (fcan_fred lb m Hlb Hlb2 Hm), R, Hh.
  - intros c _. apply incl_appl, incl_refl.
Qed.
End Ops2.

Lemma l_sub_strict L (Pre : env -> Prop) (Hon : Prop) (rand_x rand_y : Fm) P Q : ppre L P -> ppre L Q -> isp P -> isp Q ->
  (Hon -> Pre hval -> exists x1 y1 x2 y2, pred True hval P x1 y1 /\ pred True hval Q x2 y2 /\ (x1 = x2 -> y1 = y2 /\ rand_x <> x2)) ->
  hcalc L Pre Hon (ec_sub_strict lb m ch rand_x rand_y P Q) isp
    (fun e o => forall h x1 y1 x2 y2, pred h e P x1 y1 -> pred h e Q x2 y2 -> (h -> x1 = x2 -> rand_x <> x2) ->
       (x1 = x2 -> y1 = y2 /\ pred h e o F0 F0) /\
       (x1 <> x2 -> exists s, (s * (x2 - x1) = - y2 - y1)%F /\ pred h e o (fst (line3 m s x1 y1 x2)) (snd (line3 m s x1 y1 x2)))) ptcells.
Proof.
  intros CP CQ KP KQ HH. unfold ec_sub_strict. pose proof KP as [KPx KPy]. pose proof KQ as [KQx KQy].
  nb (f_is_equal lb m Hp Hlb Hlb2 Hm ch n k HN HK).
  { intros Hh HP. destruct (HH Hh HP) as (x1 & y1 & x2 & y2 & [A1 A2] & [B1 B2] & _). eauto. }
  nb (f_is_equal lb m Hp Hlb Hlb2 Hm ch n k HN HK).
  { intros Hh [HP _]. destruct (HH Hh HP) as (x1 & y1 & x2 & y2 & [A1 A2] & [B1 B2] & _). eauto. }
  unfold one at 1 2. cbn [app].
  eapply h_bind; [apply calc_h, (calc_mul lb); cbn; auto|]. cbv beta. intros ii _. unfold one. cbn [app].
  eapply h_bind; [apply h_constrain_equal; cbn; auto|]; cbv beta.
  { intros Hh [[[HP R1] R2] R3]. destruct (HH Hh HP) as (x1 & y1 & x2 & y2 & [A1 A2] & [B1 B2] & C).
    destruct (R1 _ _ _ A1 B1) as (_ & _ & E1). destruct (R2 _ _ _ A2 B2) as (_ & _ & E2). cbn [qe] in R3. rewrite R3, E1, E2, fbool_mul.
    destruct (F_dec m x1 x2) as [E|E]; [destruct (C E) as [E' _]; subst; rewrite (proj2 (Feqb_eq _ x2 x2) eq_refl), (proj2 (Feqb_eq _ y2 y2) eq_refl); reflexivity|apply Feqb_neq in E; now rewrite E]. }
  intros [] _. cbn [app].
  nb (f_load_private lb m Hp Hlb Hlb2 Hm ch n k HN HK).
  nb (f_load_private lb m Hp Hlb Hlb2 Hm ch n k HN HK).
  set (rp := mkPt c1 c2).
  assert (Krp : isp rp) by now split.
  eapply h_bind; [apply (l_select _ _ _ rp P ii); auto; try inc|].
  { apply ppre_mk; inc. }
  { eapply ppre_incl; [exact CP|]. repeat apply incl_appr. do 3 apply incl_tl. apply incl_refl. }
  { apply in_or_app. right. apply in_or_app. right. now left. }
  cbv beta. intros P' KP'. 
  set (L3 := ptcells P' ++ ccells c2 ++ ccells c1 ++ ii :: c0 :: c :: L).
  assert (IL : incl L L3). { unfold L3. do 3 apply incl_appr. do 3 apply incl_tl. apply incl_refl. }
  assert (II : In ii L3). { unfold L3. do 3 (apply in_or_app; right). now left. }
  assert (key : forall e, ((((((Pre e /\ (forall h (u v : Fm), fred h e (px P) u -> fred h e (px Q) v -> fcan h e (px P) u /\ fcan h e (px Q) v /\ e c = fbool (Feqb u v))) /\
      (forall h (u v : Fm), fred h e (py P) u -> fred h e (py Q) v -> fcan h e (py P) u /\ fcan h e (py Q) v /\ e c0 = fbool (Feqb u v))) /\ e ii = (qe e (Existing c) * qe e (Existing c0))%F) /\ e c = e ii) /\
      (exists v : Fm, (forall h : Prop, (h -> e = hval) -> fred h e c1 v) /\ (e = hval -> v = rand_x))) /\
      (exists v : Fm, (forall h : Prop, (h -> e = hval) -> fred h e c2 v) /\ (e = hval -> v = rand_y))) /\
      (forall h (x1 y1 x2 y2 : Fm) (s : bool), e ii = fbool s -> pred h e rp x1 y1 -> pred h e P x2 y2 -> pred h e P' (if s then x1 else x2) (if s then y1 else y2)) ->
      forall h (x1 y1 x2 y2 : Fm), pred h e P x1 y1 -> pred h e Q x2 y2 -> 
        exists rx ry, (e = hval -> rx = rand_x) /\ e ii = fbool (Feqb x1 x2) /\ (x1 = x2 -> y1 = y2) /\ pred h e P' (if Feqb x1 x2 then rx else x1) (if Feqb x1 x2 then ry else y1)).
  { intros e [[[[[[[HP R1] R2] R3] R4] (rx & R5 & E5)] (ry & R6 & E6)] R7] h x1 y1 x2 y2 [A1 A2] [B1 B2].
    destruct (R1 _ _ _ A1 B1) as (_ & _ & E1). destruct (R2 _ _ _ A2 B2) as (_ & _ & E2). cbn [qe] in R3. rewrite E1, E2, fbool_mul in R3. rewrite E1, R3 in R4.
    exists rx, ry. split; auto. 
    assert (D : Feqb x1 x2 = Feqb x1 x2 && Feqb y1 y2). { destruct (Feqb x1 x2), (Feqb y1 y2); auto. cbn in R4. now apply (F1_neq_0 _ Hp) in R4. }
    rewrite <- D in R3. split; auto. split.
    - intros ->. rewrite (proj2 (Feqb_eq _ _ _) eq_refl) in D. symmetry in D. cbn in D. now apply Feqb_eq in D.
    - apply R7; auto. 2: now split. split; cbn [px py rp]; [apply R5|apply R6]; intros Hh; eapply fred_hon; eauto. }
  assert (key2 : forall e (h : Prop) (x1 y1 x2 y2 rx ry : Fm), e ii = fbool (Feqb x1 x2) -> pred h e P x1 y1 -> pred h e Q x2 y2 -> (h -> x1 = x2 -> rand_x <> x2) -> (e = hval -> rx = rand_x) -> h -> (if Feqb x1 x2 then rx else x1) <> x2).
  { intros e h x1 y1 x2 y2 rx ry E [A _] _ H1 H2 Hh. pose proof (fred_hon _ _ _ _ A Hh) as He. specialize (H2 He). subst rx. 
    destruct (F_dec m x1 x2) as [D|D]. { rewrite (proj2 (Feqb_eq _ _ _) D). auto. } apply Feqb_neq in D as D'. now rewrite D'. }
  eapply h_bind; [apply (l_sub_unequal _ _ _ (NonStrict P') (NonStrict Q) false); cbn [cpt]; auto|]; cbv beta.
  { unfold ppre. apply incl_appl, incl_refl. }
  { eapply ppre_incl; eauto. }
  { intros Hh HP. assert (HP0 : Pre hval) by tauto. destruct (HH Hh HP0) as (x1 & y1 & x2 & y2 & A & B & C).
    destruct (key _ HP True _ _ _ _ A B) as (rx & ry & Q1 & Q2 & Q3 & Q4).
    eexists; eexists; exists x2, y2. split; [split; [exact Q4|exact I]|]. split; [split; [exact B|exact I]|].
    apply (key2 hval True x1 y1 x2 y2 rx ry); auto. intros _ D. now destruct (C D). }
  intros out Kout.
  eapply h_bind; [apply l_load_const|]. cbv beta. intros zz Kzz.
  set (zp := mkPt zz zz).
  assert (Kzp : isp zp) by now split.
  eapply h_post; [apply (l_select _ _ _ zp out ii); auto| | |]; cbv beta.
  - apply ppre_mk; apply incl_appl, incl_refl.
  - unfold ppre. apply incl_appr, incl_appl, incl_refl.
  - apply in_or_app. right. apply in_or_app. now right.
  - auto.
  - intros e o _ [[HP R1] R2] R3 h x1 y1 x2 y2 A B C.
    destruct (key _ HP h _ _ _ _ A B) as (rx & ry & Q1 & Q2 & Q3 & Q4).
    destruct (R1 h _ _ x2 y2 (conj Q4 I) (conj B I)) as (_ & s & S1 & S2). { apply (key2 e h x1 y1 x2 y2 rx ry); auto. }
    assert (Z : pred h e zp F0 F0). { split; apply R2; intros Hh; destruct A as [A _]; eapply fred_hon; eauto. }
    pose proof (R3 h _ _ _ _ _ Q2 Z S2) as R4. split.
    + intros D. split; auto. rewrite (proj2 (Feqb_eq _ _ _) D) in R4. exact R4.
    + intros D. apply Feqb_neq in D. rewrite D in *. exists s. split; auto.
  - intros o _. apply incl_appl, incl_refl.
Qed.
End EccProofs.
