(** EccProofs continued: indexing, curve membership, equality. *)
From Coq Require Import ZArith Znumtheory Lia List Bool Ring.
From Verif Require Import Field Spec Context ContextProofs Utils Logic Gate GateProofs ChainProofs IPProofs BitProofs PowProofs IPComp Derived
  Range RangeProofs RangeProofs2 RangeProofs3 RegionGets Calc CalcH RegionPrev RegionLast BigPrims BigNum BigInt BigSpec BigOps BigSel BigCmp BigSub BigCarry BigMod BigCrtNum BigCrt FpChip FpProofs FpProofs2 FpProofs3 FpField FpField2 FpField3 EcGroup SafeTypes Ecc EccProofs EccProofs2.
Import ListNotations.
Local Open Scope Z_scope.

Section EccProofs3.
Context {p : positive}.
Notation Fp := (F p).
Notation AV := (AV p).
Notation crt := (crt p).
Notation ecpt := (ecpt p).
Notation comparable := (comparable p).
Variables (lb : nat) (m : positive).
Notation env := (env (p:=p)).
Notation hcalc := (hcalc lb).
Hypothesis Hp : prime (Z.pos p).
Hypothesis Hlb : (1 <= lb < 64)%nat.
Hypothesis Hlb2 : (2 * lb <= CAPACITY p)%nat.
Hypothesis Hm : 1 < Z.pos m.
Add Ring Fring : (F_ring p) (morphism (F_morph p), constants [Fcst]).
Add Ring Fringm : (F_ring m) (morphism (F_morph m), constants [Fcst]).
Variables (ch : fpchip p) (n k : nat).
Hypothesis HN : fpchip_new m n k = Some ch.
Hypothesis HK : fp_params (p:=p) lb m n k.
Notation mz := (Z.pos m).
Notation Fm := (F m).
Notation M2 := (2 ^ Z.of_nat (bits mz)).
Notation W := (2 ^ Z.of_nat (n * k + NUM_BITS p)).
Notation frep := (frep (p:=p) m n).
Notation fred := (fred (p:=p) m n).
Notation fcan := (fcan (p:=p) m n).
Notation isk := (isk k).
Notation fit_mod := (fit_mod (p:=p) lb n k).
Notation fit_zero := (fit_zero (p:=p) lb n k).
Notation lg := (log2_ceil (Z.of_nat k)).
(** room for the formulas of the curve operations *)
Hypothesis HE1 : (Nat.max (lg + 2 * n + 5) (2 * n + bit_length (Z.of_nat k)) + lb + 2 <= CAPACITY p)%nat.
Hypothesis HE2 : 64 * (M2 * M2) < W.

Hypothesis Pm : prime mz.
Notation isp := (isp (p:=p) n k).
Notation pred := (pred (p:=p) m n).
Notation cpred := (cpred (p:=p) m n).
Let bnd_gen := bnd_gen lb m Hlb Hlb2 Hm n k HE1 HE2.
Let fred_frep' := fred_frep' (p:=p) lb m Hlb Hlb2 n.
Let HfitM := HfitM lb m Hlb Hlb2 n k HK HE1 HE2.
Let HfitZ := HfitZ lb m Hlb Hlb2 n k HE1 HE2.
Ltac inc1 := first [ assumption | apply incl_refl | (apply incl_appl; inc1) | (apply incl_appr; inc1) ].
Ltac inc := cbn [app];
  first [ assumption
        | (unfold ppre, cpre; inc1)
        | (apply ppre_x; unfold ppre; inc1) | (apply ppre_y; unfold ppre; inc1) 
        | (eapply cpre_incl; [eassumption|inc1])
        | (eapply ppre_incl; [eassumption|inc1])
        | (eapply cpre_incl; [apply ppre_x; eassumption|inc1]) | (eapply cpre_incl; [apply ppre_y; eassumption|inc1]) ].
Ltac bnd := pattern M2, W; apply bnd_gen; clear; intros; cbn [Z.abs]; lia.
Ltac fwd1 :=
  match goal with
  | H : _ /\ _ |- _ => lazymatch type of H with (_ <= _ < _)%nat => fail | _ => destruct H end
  | H : pred ?h ?e ?P ?x ?y |- _ =>
      lazymatch goal with _ : fred h e (px P) x, _ : fred h e (py P) y |- _ => fail | _ => pose proof (proj1 H); pose proof (proj2 H) end
  | A : fred ?h ?e ?c ?v |- _ =>
      lazymatch goal with _ : frep h e c M2 v |- _ => fail | _ => pose proof (fred_frep' h e c v A) end
  | H : forall h Ba Bb u v, frep h ?e ?a Ba u -> frep h ?e ?b Bb v -> _, A : frep ?h ?e ?a ?Ba ?u, B : frep ?h ?e ?b ?Bb ?v |- _ =>
      specialize (H h Ba Bb u v A B); cbv beta in H
  | H : forall h Ba Bb u v, frep h ?e ?a Ba u -> frep h ?e ?a Bb v -> _, A : frep ?h ?e ?a ?Ba ?u |- _ =>
      specialize (H h Ba Ba u u A A); cbv beta in H
  | H : forall h Ba u, frep h ?e ?a Ba u -> _, A : frep ?h ?e ?a ?Ba ?u |- _ => specialize (H h Ba u A); cbv beta in H
  | H : 8 * ?x < W -> _ |- _ => let X := fresh in assert (X : 8 * x < W) by bnd; specialize (H X); clear X
  end.
Ltac fwd := repeat fwd1.
Ltac nb lem := eapply h_bind; [eapply lem; try inc; try eassumption|]; cbv beta; [..|let c := fresh "c" in let K := fresh "K" in intros c K; cbn [app]].
Ltac nb0 lem := eapply h_bind; [eapply lem; try inc; try eassumption|]; cbv beta; [..|intros [] _; cbn [app]].



Lemma Forall2_len {A B} (R : A -> B -> Prop) l l' : Forall2 R l l' -> length l = length l'.
Proof. induction 1; cbn; congruence. Qed.
Lemma calc_or_and L (Pre : env -> Prop) a b c : qin L a -> qin L b -> qin L c ->
  calc lb L Pre (or_and a b c) (fun _ => True) (fun e o => e o = (qe e b * qe e c + qe e a - (qe e b * qe e c) * qe e a)%F) one.
Proof.
  intros A B C. eapply calc_prim.
  - eapply sound_weaken; [apply or_and_sound|auto|]. cbv beta. intros sg o _ (x & y & z & Hx & Hy & Hz & ->).
    rewrite <- !qval_qe. now rewrite (pin_sem _ _ _ (qin_pin _ _ A) Hx), (pin_sem _ _ _ (qin_pin _ _ B) Hy), (pin_sem _ _ _ (qin_pin _ _ C) Hz).
  - intros HG. apply or_and_comp; eauto using qin_qh.
  - intros rho HF. unfold qok3. repeat split; eauto using qin_ok.
Qed.
Definition Rbits (e : env) (sel : list AV) (bs : list bool) : Prop := map e sel = map fbool bs.
Lemma onehot_ind (bs : list bool) : exists j, onehot_at (p:=p) j (ind_of (map fbool bs)) /\ Z.of_nat j = undigits 1 (map Z.b2z bs).
Proof.
  assert (D : 0 <= undigits 1 (map Z.b2z bs) < 2 ^ Z.of_nat (length bs)).
  { clear. induction bs as [|b bs IH]; cbn [map undigits length]. { cbn. lia. }
    change (2 ^ Z.of_nat 1) with 2. rewrite Nat2Z.inj_succ, Z.pow_succ_r by lia. destruct b; cbn [Z.b2z]; lia. }
  exists (Z.to_nat (undigits 1 (map Z.b2z bs))). split; [|lia].
  assert (E : (2 ^ length bs)%nat = Z.to_nat (2 ^ Z.of_nat (length bs))).
  { rewrite <- (Nat2Z.id (2 ^ length bs)). now rewrite Nat2Z.inj_pow. }
  split; rewrite ind_of_length, map_length.
  - rewrite E. lia.
  - intros i Hi. rewrite ind_of_bits by exact Hi. f_equal.
    destruct (Nat.eqb_spec i (Z.to_nat (undigits 1 (map Z.b2z bs)))) as [->|D']; [apply Z.eqb_eq|apply Z.eqb_neq]; lia.
Qed.
Lemma h_bits_to_indicator L (Pre : env -> Prop) (Hon : Prop) (sel : list AV) : incl sel L -> sel <> [] ->
  hcalc L Pre Hon (bits_to_indicator sel) (fun o => length o = (2 ^ length sel)%nat) (fun e o => map e o = ind_of (map e sel)) (fun o => o).
Proof.
  intros HI Hne. apply calc_h. eapply calc_prim_l with (H := fun rho => Forall (av_ok rho) sel).
  - apply bits_to_indicator_sound.
  - intros HG. apply bits_to_indicator_comp; auto. apply good_hv_l. rewrite Forall_forall in *. auto.
  - intros rho HF. rewrite Forall_forall in *. auto.
  - intros o HF. pose proof (Forall2_len _ _ _ HF) as HF2. rewrite HF2, ind_of_length, map_length. reflexivity.
Qed.

Section Ops.
Variables (L : list AV) (Pre : env -> Prop) (Hon : Prop).

Lemma l_sbi (Ps : list ecpt) (coeffs : list AV) : Ps <> [] -> Forall (ppre L) Ps -> incl coeffs L -> length Ps = length coeffs -> Forall isp Ps ->
  (Hon -> Pre hval -> exists j, onehot_at j (map hval coeffs)) ->
  hcalc L Pre Hon (ec_select_by_indicator ch Ps coeffs) isp
    (fun e o => forall h j Pj x y, onehot_at j (map e coeffs) -> nth_error Ps j = Some Pj -> pred h e Pj x y -> pred h e o x y) ptcells.
Proof.
  intros Hne HL Hc HLen HI HO. unfold ec_select_by_indicator.
  assert (HO' : Hon -> Pre hval -> onehot (map hval coeffs)). { intros Hh HP. destruct (HO Hh HP) as (j & A). eapply onehot_at_onehot; eauto. }
  assert (X : forall f : ecpt -> crt, (forall P, ppre L P -> cpre L (f P)) -> (forall P, isp P -> isk (f P) n) ->
     map f Ps <> [] /\ Forall (cpre L) (map f Ps) /\ length (map f Ps) = length coeffs /\ Forall (fun c => isk c n) (map f Ps)).
  { intros f F1 F2. repeat split.
    - destruct Ps; [congruence|discriminate].
    - rewrite Forall_map. eapply Forall_impl; [|exact HL]. auto.
    - now rewrite map_length.
    - rewrite Forall_map. eapply Forall_impl; [|exact HI]. auto. }
  destruct (X px (@ppre_x _ _) ltac:(intros P [A _]; exact A)) as (X1 & X2 & X3 & X4).
  destruct (X py (@ppre_y _ _) ltac:(intros P [_ A]; exact A)) as (Y1 & Y2 & Y3 & Y4).
  eapply h_bind; [apply (f_sbi lb m Hp Hlb Hlb2 Hm ch n k HN); auto|]. cbv beta. intros cx Kx.
  eapply h_bind; [apply (f_sbi lb m Hp Hlb Hlb2 Hm ch n k HN _ _ _ (map py Ps) coeffs); auto|]; cbv beta.
  { eapply Forall_impl; [|exact Y2]. intros c Hcc. eapply cpre_incl; [exact Hcc|inc1]. }
  { apply incl_appr. assumption. }
  { intros Hh [HP _]. auto. }
  intros cy Ky. apply h_ret; [now split| |].
  { apply ppre_mk; inc. }
  intros e [[HP R1] R2] h j Pj x y A B [C1 C2]. split; cbn [px py].
  - eapply R1; eauto. now apply map_nth_error.
  - eapply R2; eauto. now apply map_nth_error.
Qed.
End Ops.
Section Ops2.
Variables (L : list AV) (Pre : env -> Prop) (Hon : Prop).
Lemma l_select_from_bits (Ps : list ecpt) (sel : list AV) : Forall (ppre L) Ps -> incl sel L -> Forall isp Ps ->
  (Hon -> sel <> [] /\ length Ps = (2 ^ length sel)%nat) ->
  (Hon -> Pre hval -> exists bs, Rbits hval sel bs) ->
  hcalc L Pre Hon (ec_select_from_bits ch Ps sel) isp
    (fun e o => forall h bs Pj x y, Rbits e sel bs -> nth_error Ps (Z.to_nat (undigits 1 (map Z.b2z bs))) = Some Pj -> pred h e Pj x y -> pred h e o x y) ptcells.
Proof.
  intros HL Hs HI HH HB. unfold ec_select_from_bits.
  apply h_assert_bind. { intros Hh _. destruct (HH Hh) as [_ ->]. apply Nat.eqb_refl. } intros E. apply Nat.eqb_eq in E.
  destruct sel as [|s0 sel'] eqn:Esel.
  { unfold bits_to_indicator. cbn [rev]. split.
    - intros s o s' Ws Hx. cbn in Hx. discriminate.
    - intros _ _ Hh. destruct (HH Hh) as [X _]. congruence. }
  rewrite <- Esel in *.
  eapply h_bind; [apply (h_bits_to_indicator L Pre Hon sel); [exact Hs|congruence]|]. cbv beta. intros co Lco.
  eapply h_post; [apply (l_sbi _ _ _ Ps co)| | |]; cbv beta; auto.
  - intros ->. cbn in E. pose proof (Nat.pow_nonzero 2 (length sel)). lia.
  - eapply Forall_impl; [|exact HL]. intros P HP. eapply ppre_incl; [exact HP|inc1].
  - apply incl_appl, incl_refl.
  - congruence.
  - intros Hh [HP R]. destruct (HB Hh HP) as (bs & Eb). rewrite R. unfold Rbits in Eb. rewrite Eb. destruct (onehot_ind bs) as (j & Hj & _). eauto.
  - intros e o _ [HP R] R2 h bs Pj x y Eb HN0 A. unfold Rbits in Eb. destruct (onehot_ind bs) as (j & Hj & Ej). eapply R2; [| |exact A].
    + rewrite R, Eb. exact Hj.
    + rewrite <- Ej, Nat2Z.id in HN0. exact HN0.
  - intros o _. apply incl_appl, incl_refl.
Qed.

(** curve membership *)
Variable b : Fm.
Definition cdiff (x y : Fm) : Fm := (y * y - (x * x * x + b))%F.
Lemma cdiff_onc x y : cdiff x y = F0 <-> onc2 m b x y.
Proof.
  unfold cdiff, onc2. split; intros H.
  - replace (y * y)%F with ((y * y - (x * x * x + b)) + (x * x * x + b))%F by ring. rewrite H. ring.
  - rewrite H. ring.
Qed.
Definition dB := M2 * M2 + (M2 * M2 + M2).
Lemma l_curve_diff P : ppre L P -> isp P -> (Hon -> Pre hval -> exists x y, pred True hval P x y) ->
  hcalc L Pre Hon (curve_diff lb m ch b P) (fun c => isk c (Nat.max (lg + n + n) (Nat.max (lg + n + n) n + 1) + 1))
    (fun e c => forall h x y, pred h e P x y -> frep h e c dB (cdiff x y)) ccells.
Proof.
  intros CP [KPx KPy] HH. unfold curve_diff, fp_sub_no_carry.
  nb (f_mul_nc lb m Hp Hlb Hlb2 Hm ch n k HN HK).
  nb (f_mul lb m Hp Hlb Hlb2 Hm ch n k HN HK).
  { apply HfitM. lia. }
  { intros Hh [HP _]. destruct (HH Hh HP) as (x & y & A). fwd. eexists; eexists; eexists; eexists. split; [eassumption|]. split; [eassumption|]. bnd. }
  nb (f_mul_nc lb m Hp Hlb Hlb2 Hm ch n k HN HK).
  nb (f_addc lb m Hp Hlb Hlb2 Hm ch n k HN HK).
  eapply h_post; [eapply (f_sub lb m Hlb Hlb2 n k); try inc; eassumption| | |]; cbv beta.
  - auto.
  - intros e c3 _ [[[[HP R1] R2] R3] R4] R5 h x y A. fwd. unfold cdiff, dB. assumption.
  - intros o _. apply incl_appl, incl_refl.
Qed.
Lemma dB_ok : 8 * dB < W.
Proof. unfold dB. bnd. Qed.
End Ops2.
Section Ops3.
Variables (L : list AV) (Pre : env -> Prop) (Hon : Prop) (b : Fm).
Lemma l_check_on_curve P : ppre L P -> isp P -> (Hon -> Pre hval -> exists x y, pred True hval P x y /\ onc2 m b x y) ->
  hcalc L Pre Hon (check_is_on_curve lb m ch b P) (fun _ => True) (fun e _ => forall h x y, pred h e P x y -> onc2 m b x y) (fun _ => []).
Proof.
  intros CP KP HH. unfold check_is_on_curve.
  eapply h_bind; [apply l_curve_diff; auto|].
  { intros Hh HP. destruct (HH Hh HP) as (x & y & A & _). eauto. }
  cbv beta. intros c Kc.
  eapply h_post; [eapply (f_check0 lb m Hp Hlb Hlb2 Hm ch n k HN HK _ _ _ c _); [|exact Kc| |]| | |]; cbv beta; auto.
  - apply incl_appl, incl_refl.
  - apply HfitZ. lia.
  - intros Hh [HP R]. destruct (HH Hh HP) as (x & y & A & B). exists dB. apply cdiff_onc in B. rewrite <- B. split; [now apply R|apply dB_ok].
  - intros e _ _ [HP R] R2 h x y A. apply cdiff_onc. apply (R2 h dB); [apply R; exact A|apply dB_ok].
  - intros _ _ x [].
Qed.
Lemma l_load_unchecked (x y : Fm) : hcalc L Pre Hon (ecc_load_private_unchecked lb m ch x y) isp
  (fun e o => exists u v, (forall h : Prop, (h -> e = hval) -> pred h e o u v) /\ (e = hval -> u = x /\ v = y)) ptcells.
Proof.
  unfold ecc_load_private_unchecked.
  nb (f_load_private lb m Hp Hlb Hlb2 Hm ch n k HN HK).
  nb (f_load_private lb m Hp Hlb Hlb2 Hm ch n k HN HK).
  apply h_ret; [now split|apply ppre_mk; inc|].
  intros e [[_ (u & U1 & U2)] (v & V1 & V2)]. exists u, v. split; [|auto]. intros h Hh. split; cbn [px py]; auto.
Qed.
End Ops3.
Section Ops4.
Variables (L : list AV) (Pre : env -> Prop) (Hon : Prop) (b : Fm).
Lemma l_load (x y : Fm) : (Hon -> onc2 m b x y) -> hcalc L Pre Hon (ecc_load_private lb m ch b x y) isp
  (fun e o => exists u v, onc2 m b u v /\ (forall h : Prop, (h -> e = hval) -> pred h e o u v) /\ (e = hval -> u = x /\ v = y)) ptcells.
Proof.
  intros HB. unfold ecc_load_private.
  eapply h_bind; [apply l_load_unchecked|]. cbv beta. intros P KP.
  eapply h_bind; [apply (l_check_on_curve _ _ _ b P); auto|]; cbv beta.
  { unfold ppre. apply incl_appl, incl_refl. }
  { intros Hh [HP (u & v & U & V)]. destruct (V eq_refl) as [-> ->]. exists x, y. split; auto. }
  intros _ _. cbn [app]. apply h_ret; auto. { unfold ppre. apply incl_appl, incl_refl. }
  intros e [[HP (u & v & U & V)] R]. exists u, v. split; [|auto]. apply (R False). apply U. tauto.
Qed.
Lemma l_load_random (x y : Fm) : (Hon -> onc2 m b x y) -> hcalc L Pre Hon (load_random_point lb m ch b x y) isp
  (fun e o => exists u v, onc2 m b u v /\ (forall h : Prop, (h -> e = hval) -> pred h e o u v) /\ (e = hval -> u = x /\ v = y)) ptcells.
Proof.
  intros HB.
  unfold load_random_point.
  nb (f_load_private lb m Hp Hlb Hlb2 Hm ch n k HN HK).
  nb (f_load_private lb m Hp Hlb Hlb2 Hm ch n k HN HK).
  assert (HPP : ppre (ccells c0 ++ ccells c ++ L) (mkPt c c0)) by (apply ppre_mk; inc).
  assert (KP : isp (mkPt c c0)) by now split.
  eapply h_bind; [apply (l_check_on_curve _ _ _ b (mkPt c c0)); auto|]; cbv beta.
  { intros Hh [[HP (u & U1 & U2)] (v & V1 & V2)]. exists x, y. split; auto. rewrite <- U2, <- V2 by auto. split; cbn [px py]; auto. }
  intros _ _. cbn [app]. apply h_ret; auto.
  intros e [[[HP (u & U1 & U2)] (v & V1 & V2)] R]. exists u, v. split; [|split; [|auto]].
  - apply (R False). split; cbn [px py]; [apply U1|apply V1]; tauto.
  - intros h Hh. split; cbn [px py]; auto.
Qed.
Lemma l_into_strict P : ppre L P -> isp P -> (Hon -> Pre hval -> exists x y, pred True hval P x y) ->
  hcalc L Pre Hon (into_strict_point lb ch P) (fun o => o = P) (fun e o => forall h x y, pred h e P x y -> pred h e o x y /\ fcan h e (px o) x) ptcells.
Proof.
  intros CP [KPx KPy] HH. unfold into_strict_point.
  eapply h_bind; [eapply (f_enforce_lt lb m Hp Hlb Hlb2 Hm ch n k HN HK); [apply ppre_x; eassumption|exact KPx|]|]; cbv beta.
  { intros Hh HP. destruct (HH Hh HP) as (x & y & A & _). eauto. }
  intros c ->. cbn [app]. apply h_ret.
  - now destruct P.
  - apply ppre_mk; inc.
  - intros e [HP R] h x y [A B]. split; [split; assumption|]. cbn [px]. auto.
Qed.
Lemma l_on_curve_or_inf P : ppre L P -> isp P -> (Hon -> zcap (p:=p) n k) -> (Hon -> Pre hval -> exists x y, pred True hval P x y) ->
  hcalc L Pre Hon (is_on_curve_or_infinity lb m ch b P) (fun _ => True)
    (fun e o => forall h x y, pred h e P x y -> e o = fbool (Fis0 (cdiff b x y) || (Fis0 x && Fis0 y))) one.
Proof.
  intros CP KP HZ HH. pose proof KP as [KPx KPy]. unfold is_on_curve_or_infinity.
  eapply h_bind; [apply l_curve_diff; auto|]. cbv beta. intros c Kc.
  nb (f_carry lb m Hp Hlb Hlb2 Hm ch n k HN HK).
  { apply HfitM. lia. }
  { intros Hh [HP R]. destruct (HH Hh HP) as (x & y & A). exists dB, (cdiff b x y). split; [now apply R|apply dB_ok]. }
  nb (f_is_zero lb m Hp Hlb Hlb2 Hm ch n k HN HK).
  { intros Hh [[HP R] R2]. destruct (HH Hh HP) as (x & y & A). exists (cdiff b x y). apply (R2 True dB); [now apply R|apply dB_ok]. }
  nb (f_is_zero lb m Hp Hlb Hlb2 Hm ch n k HN HK).
  { intros Hh [[[HP R] R2] R3]. destruct (HH Hh HP) as (x & y & A & B). eauto. }
  nb (f_is_zero lb m Hp Hlb Hlb2 Hm ch n k HN HK).
  { intros Hh [[[[HP R] R2] R3] R4]. destruct (HH Hh HP) as (x & y & A & B). eauto. }
  eapply h_post; [apply calc_h, (calc_or_and _ _ (Existing c1) (Existing c2) (Existing c3)); cbn; auto| | |]; cbv beta; auto.
  - intros e o _ [[[[[HP R] R1] R2] R3] R4] R5 h x y A. rewrite R5. cbn [qe].
    destruct (R2 h (cdiff b x y)) as [_ ->]. { apply (R1 h dB); [now apply R|apply dB_ok]. }
    destruct A as [A B]. destruct (R3 h x A) as [_ ->]. destruct (R4 h y B) as [_ ->].
    destruct (Fis0 (cdiff b x y)), (Fis0 x), (Fis0 y); cbn; ring.
  - intros o _. apply incl_appl, incl_refl.
Qed.
End Ops4.
Section Ops5.
Variables (L : list AV) (Pre : env -> Prop) (Hon : Prop) (b : Fm).
Lemma Fis0_iff (x : Fm) : Fis0 x = true <-> x = F0.
Proof. apply Fis0_true. Qed.
Definition onc_inf (x y : Fm) : Prop := onc2 m b x y \/ (x = F0 /\ y = F0).
Lemma onc_inf_b x y : Fis0 (cdiff b x y) || (Fis0 x && Fis0 y) = true <-> onc_inf x y.
Proof. rewrite orb_true_iff, andb_true_iff, !Fis0_iff. unfold onc_inf. rewrite cdiff_onc. tauto. Qed.
Lemma l_assign_point (x y : Fm) : (Hon -> zcap (p:=p) n k) -> (Hon -> onc_inf x y) -> hcalc L Pre Hon (ecc_assign_point lb m ch b x y) isp
  (fun e o => exists u v, onc_inf u v /\ (forall h : Prop, (h -> e = hval) -> pred h e o u v) /\ (e = hval -> u = x /\ v = y)) ptcells.
Proof.
  intros HZ HB. unfold ecc_assign_point.
  eapply h_bind; [apply l_load_unchecked|]. cbv beta. intros P KP.
  eapply h_bind; [apply (l_on_curve_or_inf _ _ _ b P); auto|]; cbv beta.
  { unfold ppre. apply incl_appl, incl_refl. }
  { intros Hh [HP (u & v & U & V)]. destruct (V eq_refl) as [-> ->]. exists x, y. auto. }
  intros o _. eapply h_bind; [apply (h_assert_is_const lb _ _ _ o F1)|]; cbv beta.
  { now left. }
  { intros Hh [[HP (u & v & U & V)] R]. destruct (V eq_refl) as [-> ->]. rewrite (R True x y) by auto. rewrite (proj2 (onc_inf_b x y)); auto. }
  intros _ _. cbn [app]. apply h_ret; auto. { unfold ppre. apply incl_appr, incl_appl, incl_refl. }
  intros e [[[HP (u & v & U & V)] R] E]. exists u, v. split; [|auto].
  rewrite (R False u v) in E by (apply U; tauto). apply onc_inf_b. destruct (_ || _); auto. cbn in E. symmetry in E. now apply (F1_neq_0 _ Hp) in E.
Qed.
Lemma l_constant_point (x y : Fm) : hcalc L Pre Hon (ecc_assign_constant_point m ch x y) isp
  (fun e o => forall h : Prop, (h -> e = hval) -> pred h e o x y) ptcells.
Proof.
  unfold ecc_assign_constant_point.
  eapply h_bind; [apply (l_load_const lb m Hp Hlb Hlb2 Hm ch n k HN HK)|]. cbv beta. intros cx Kx.
  eapply h_bind; [apply (l_load_const lb m Hp Hlb Hlb2 Hm ch n k HN HK)|]. cbv beta. intros cy Ky.
  apply h_ret; [now split|apply ppre_mk; inc|].
  intros e [[_ R1] R2] h Hh. split; cbn [px py]; auto.
Qed.
Lemma l_negate P : ppre L P -> isp P -> (Hon -> zcap (p:=p) n k) -> (Hon -> Pre hval -> exists x y, pred True hval P x y) ->
  hcalc L Pre Hon (ecc_negate lb ch P) isp (fun e o => forall h x y, pred h e P x y -> pred h e o x (- y)%F) ptcells.
Proof.
  intros CP [KPx KPy] HZ HH. unfold ecc_negate.
  nb (f_negate lb m Hp Hlb Hlb2 Hm ch n k HN HK).
  { intros Hh HP. destruct (HH Hh HP) as (x & y & A & B). eauto. }
  apply h_ret; [now split|apply ppre_mk; inc|].
  intros e [_ R] h x y [A B]. split; cbn [px py]; auto.
Qed.
Lemma l_is_equal P Q : ppre L P -> ppre L Q -> isp P -> isp Q -> (Hon -> Pre hval -> exists x1 y1 x2 y2, pred True hval P x1 y1 /\ pred True hval Q x2 y2) ->
  hcalc L Pre Hon (ecc_is_equal lb ch P Q) (fun _ => True)
    (fun e o => forall h x1 y1 x2 y2, pred h e P x1 y1 -> pred h e Q x2 y2 -> e o = fbool (Feqb x1 x2 && Feqb y1 y2)) one.
Proof.
  intros CP CQ [KPx KPy] [KQx KQy] HH. unfold ecc_is_equal.
  nb (f_is_equal lb m Hp Hlb Hlb2 Hm ch n k HN HK).
  { intros Hh HP. destruct (HH Hh HP) as (x1 & y1 & x2 & y2 & [A1 A2] & [B1 B2]). eauto. }
  nb (f_is_equal lb m Hp Hlb Hlb2 Hm ch n k HN HK).
  { intros Hh [HP _]. destruct (HH Hh HP) as (x1 & y1 & x2 & y2 & [A1 A2] & [B1 B2]). eauto. }
  unfold one at 1 2. cbn [app].
  eapply h_post; [apply calc_h, (calc_mul lb); cbn; auto| | |]; cbv beta; auto.
  - intros e o _ [[_ R1] R2] R3 h x1 y1 x2 y2 [A1 A2] [B1 B2]. cbn [qe] in R3.
    destruct (R1 _ _ _ A1 B1) as (_ & _ & E1). destruct (R2 _ _ _ A2 B2) as (_ & _ & E2). now rewrite R3, E1, E2, fbool_mul.
  - intros o _. apply incl_appl, incl_refl.
Qed.
Lemma l_assert_equal P Q : ppre L P -> ppre L Q -> isp P -> isp Q -> (Hon -> Pre hval -> exists x y, pred True hval P x y /\ pred True hval Q x y) ->
  hcalc L Pre Hon (ecc_assert_equal lb ch P Q) (fun _ => True)
    (fun e o => forall h x1 y1 x2 y2, pred h e P x1 y1 -> pred h e Q x2 y2 -> x1 = x2 /\ y1 = y2) (fun _ => []).
Proof.
  intros CP CQ [KPx KPy] [KQx KQy] HH. unfold ecc_assert_equal.
  nb0 (f_assert_equal lb m Hp Hlb Hlb2 Hm ch n k HN HK).
  { intros Hh HP. destruct (HH Hh HP) as (x & y & [A1 A2] & [B1 B2]). eauto. }
  eapply h_post; [eapply (f_assert_equal lb m Hp Hlb Hlb2 Hm ch n k HN HK); try inc; try eassumption| | |]; cbv beta; auto.
  - intros Hh [HP _]. destruct (HH Hh HP) as (x & y & [A1 A2] & [B1 B2]). eauto.
  - intros e _ _ [_ R1] R2 h x1 y1 x2 y2 [A1 A2] [B1 B2]. destruct (R1 _ _ _ A1 B1) as [? _]. destruct (R2 _ _ _ A2 B2) as [? _]. auto.
  - intros _ _ x [].
Qed.
End Ops5.
End EccProofs3.
