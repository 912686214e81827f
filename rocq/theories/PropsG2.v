(** Property theorems C83 and C84: the points of the twist in circuits (ecc/mod.rs over Fp2Chip) and the aggregated BLS signature (bls_signature.rs).
    Reading guide: [sound]/[comp] as in PropsGate.v, [gcarried]/[hgcarried]/[pcarried] as in PropsPairing.v, [canonicals] as in PropsExt.v, [tadd] the complete group
    law of [y^2 = x^3 + b] over Fp2 (Ec2Group.v), [pt_add] the chord formula for points of different x (MillerSpec.v). *)
From Coq Require Import ZArith NArith Znumtheory Lia List Bool Ring.
From Verif Require Import EcGroup PropsEcc PropsMsm PropsSum Ec2Group.
From Verif Require Import Field Spec Context ContextProofs Utils Logic Gate GateProofs ChainProofs IPProofs BitProofs PowProofs IPComp Derived Calc CalcH
  Range RangeProofs RangeProofs2 RangeProofs3 BigInt BigSpec BigNum BigPrims BigOps BigSel BigCmp BigSub BigCarry BigMod BigCrtNum BigCrt
  FpChip FpProofs FpProofs2 FpProofs3 FpField FpField2 FpField3 Pocklington Bn254Primes PropsBigInt PropsFp Ecc PropsNaf FieldExt ExtSpec ExtSpec2 ExtProofs ExtProofs2 ExtProofs3 ExtProofs4 ExtProofs5 PropsExt PropsExt2
  RingPow CycSpec FrobSpec Cyclo Fp12Field FinalExp GaussOps FinalProofs FinalProofs2 FinalProofs3 FinalHigh PropsFinal
  MillerSpec MillerAlg Pairing EccProofs EccProofs3 PairOps PairOps2 PairOps3 PairOps4 PairOps5 Bls BlsAlg PropsPairing EccG2 PairOpsG2.
Import ListNotations.
Local Open Scope Z_scope.

Section G2Props.
Context (p m : positive) (lb : nat) (Hp : prime (Z.pos p)) (Hlb : (1 <= lb < 64)%nat) (Hlb2 : (2 * lb <= CAPACITY p)%nat) (Hm : prime (Z.pos m)).
Context (n k : nat) (ch : fpchip p) (HN : fpchip_new m n k = Some ch) (HK : fp_params (p:=p) lb m n k).
Notation vec := (list (crt p)).
Notation carrieds := (carrieds (p:=p) m n).
Notation hcarrieds := (hcarrieds (p:=p) m n k).
Notation vlimbs_eq := (vlimbs_eq (p:=p) k).
Notation W := (2 ^ Z.of_nat (n * k + NUM_BITS p)).
Notation M2 := (2 ^ Z.of_nat (bits (Z.pos m))).
Notation room := (ExtProofs.room (p:=p) lb n k).
Notation lg := (log2_ceil (Z.of_nat k)).
(** [XI_0] and the room its products need *)
Context (xi0 : Z) (Hxi1 : 1 <= Z.abs xi0) (Hxi : - 2 ^ 63 < xi0 < 2 ^ 63 - 1).
Context (Hroom : room (lg + n + n + 9 + Nat.max (log2_ceil (Z.abs xi0)) (log2_ceil (Z.abs (xi0 + 1))) + 1)) (HB : 8 * ((12 * Z.abs xi0 + 12) * (M2 * M2) + 2 * M2) < W).
(** the field: [Fp2Chip::new]'s check, [q = 1 mod 6], and [xi^((q^2-1)/6)] a primitive sixth root of unity *)
Context (H3' : ext_new_ok m = true) (H6 : Z.pos m mod 6 = 1) (Hz6 : primitive6 (m:=m) xi0).
(** halo2curves' table: [FROBENIUS_COEFF_FQ12_C1[j] = xi^((q^j-1)/6)] *)
Context (ftab : list (x2 m)) (Htab : forall j, (j < 12)%nat -> nth_error ftab j = Some (npow x2_1 x2_mul (xi (m:=m) xi0) ((N.pos m ^ N.of_nat j - 1) / 6))).
Notation q := (N.pos m).
Notation w6 := (w6 (m:=m)).
Notation wmul := (w6_mul (m:=m) xi0).
Notation "x ^^ e" := (npow (w6_1 (m:=m)) wmul x e) (at level 30).
Notation hint2 := (quot2 m).
Notation hint12 := (quot12 m xi0).
Let Hm1 : 1 < Z.pos m. Proof. pose proof (prime_ge_2 _ Hm). lia. Qed.
Let HM : Z.pos m < M2. Proof. exact (m_le_M2 lb m Hlb Hlb2 Hm1). Qed.
Let H3 : Z.pos m mod 4 = 3. Proof. pose proof (proj1 (Z.eqb_eq _ _) H3') as E. now rewrite (modulus_correct Hm1) in E. Qed.
Let T : env (p:=p) -> Prop := fun _ => True.
Ltac snd H := eapply sound_weaken; [apply (h_sound lb _ _ _ _ _ H)|cbv beta|cbv beta]; auto.
Ltac cmp H := eapply comp_weaken; [apply (h_comp lb _ _ _ _ _ H)|cbv beta|cbv beta|cbv beta]; auto.
Let Hh2 : forall x y : x2 m, hint2 [fst x; Datatypes.snd x] [fst y; Datatypes.snd y] = [fst (x2_mul x (x2_inv y)); Datatypes.snd (x2_mul x (x2_inv y))].
Proof. intros [] []. reflexivity. Qed.
Let Hh12l : forall u v : list (F m), length u = 12%nat -> length v = 12%nat -> length (hint12 u v) = 12%nat.
Proof. intros u v Hu Hv. unfold quot12. apply x12_mul_length; auto. now apply x12_inv_length. Qed.
Let Hh12 : forall x y : w6, unit12 m xi0 y -> x12_mul xi0 (hint12 (enc x) (enc y)) (enc y) = enc x.
Proof.
  intros x y (z & E). apply (x12_quot' m Hm xi0 H3); try apply enc_len. apply (x12_unit_iff xi0 Hm H3); [apply enc_len|]. exists (enc z). split; [apply enc_len|]. rewrite enc_mul, E. apply enc_1.
Qed.
Let unz (x : w6) : x <> w6_0 -> unit12 m xi0 x. Proof. intros N. exact (w6_field xi0 Hm H3 H6 Hz6 x N). Qed.
(** an Fp12 chip value: 12 coordinates of [k] limbs of [n] bits *)
Notation shape12 := (fun o : vec => length o = 12%nat /\ vlimbs_eq o n).
Let cv e (a : vec) (x : w6) : carrieds e a (enc x) -> wred m n False e a x. Proof. apply carrieds_vred. Qed.
Let vc h e (a : vec) (x : w6) : wred m n h e a x -> carrieds e a (enc x). Proof. apply vred_carrieds. Qed.
Let hv (a : vec) (x : w6) : hcarrieds a (enc x) -> wred m n True hval a x. Proof. apply hcarrieds_vred. exact HM. Qed.
Let vh (a : vec) (x : w6) : Forall good (cells a) -> vlimbs_eq a n -> wred m n True hval a x -> hcarrieds a (enc x). Proof. intros. now apply vred_hcarrieds. Qed.
Let hl (a : vec) (x : w6) : hcarrieds a (enc x) -> ok12 n k a. Proof. intros H. split; [rewrite (hcarrieds_len _ _ _ _ _ H); apply enc_len|exact (hcarrieds_vlimbs _ _ _ _ _ H)]. Qed.


Notation pt2 := (MillerSpec.pt2 (m:=m)).
Notation g2pt := (g2pt p).
Notation ecpt := (ecpt p).
Notation gcarried := (PropsPairing.gcarried p m n).
Notation hgcarried := (PropsPairing.hgcarried p m n k).
Notation gshape := (PropsPairing.gshape p n k).
Notation gcells := (PropsPairing.gcells p).
Notation pcarried := (PropsPairing.pcarried p m n).
Notation pshape := (PropsPairing.pshape p n k).
Notation canonicals := (PropsExt.canonicals (p:=p) m n).
(** the honest prover's hint of [neg_divide_unsafe]: [- a * b.invert()] *)
Notation neghint2 := (negquot2 m).
Let Hn2 : forall x y : x2 m, neghint2 [fst x; Datatypes.snd x] [fst y; Datatypes.snd y] = [fst (x2_mul (x2_opp x) (x2_inv y)); Datatypes.snd (x2_mul (x2_opp x) (x2_inv y))].
Proof. intros [] []. reflexivity. Qed.
Let cg e Q A : gcarried e Q A -> gred m n False e Q A. Proof. intros [X Y]. split; now apply carrieds_vred. Qed.
Let gc h e Q A : gred m n h e Q A -> gcarried e Q A. Proof. intros [X Y]. split; eapply vred_carrieds; eauto. Qed.
Let hg Q A : hgcarried Q A -> gred m n True hval Q A. Proof. intros [X Y]. split; now apply hcarrieds_vred with (k:=k). Qed.
Let gh Q A : Forall good (gcells Q) -> gshape Q -> gred m n True hval Q A -> hgcarried Q A.
Proof. intros G [[_ K1] [_ K2]] [X Y]. apply Forall_app in G as [G1 G2]. split; now apply vred_hcarrieds. Qed.
Let hgs Q A : hgcarried Q A -> gshape Q /\ Forall good (gcells Q).
Proof.
  intros [X Y]. split; [|apply Forall_app; split; [exact (hcarrieds_good _ _ _ _ _ X)|exact (hcarrieds_good _ _ _ _ _ Y)]].
  split; (split; [|]); try (exact (hcarrieds_vlimbs _ _ _ _ _ X) || exact (hcarrieds_vlimbs _ _ _ _ _ Y)); [now rewrite (hcarrieds_len _ _ _ _ _ X)|now rewrite (hcarrieds_len _ _ _ _ _ Y)].
Qed.
(** the twist [y^2 = x^3 + b] over Fp2 *)
Context (b : x2 m) (Hb : b <> x2_0).
Definition on_twist (A : pt2) : Prop := x2_mul (Datatypes.snd A) (Datatypes.snd A) = x2_add (x2_mul (x2_mul (fst A) (fst A)) (fst A)) b.
(** a point given as an operand of a strict comparison: a strict point ([s = true]) has a canonical x-coordinate *)
Definition gcmp (s : bool) (e : env) (P : g2pt) (A : pt2) : Prop := gcarried e P A /\ (s = true -> canonicals e (gx P) (l2 (fst A))).
(** the sum of points in the group *)
Definition tsum (As : list pt2) : tpt m := fold_right (fun A S => tadd m (Some A) S) None As.
(** the partial sums of an addition chain whose every addition is a chord *)
Fixpoint chain (A : pt2) (Bs : list pt2) : option pt2 := match Bs with [] => Some A | B :: Bs => match pt_add A B with None => None | Some U => chain U Bs end end.
Let Hm3 : 3 < Z.pos m. Proof. destruct (Z_lt_le_dec 3 (Z.pos m)) as [H|H]; [exact H|]. assert (E : Z.pos m = 2 \/ Z.pos m = 3) by lia. exfalso. clear - E H6. destruct E as [E|E]; rewrite E in H6; revert H6; vm_compute; intros X; inversion X. Qed.
Let optc s e P A : gcmp s e P A -> gopt m n s False e P A.
Proof. intros [G C]. split; [now apply cg|]. intros E. apply canonicals_vcan. exact (C E). Qed.
Let strc h e P A : gstr m n h e P A -> gcmp true e P A.
Proof. intros [G C]. split; [eapply gc; eauto|]. intros _. eapply vcan_canonicals; eauto. Qed.
Theorem C83_curve_sound : forall (P : g2pt) (A : pt2), gshape P ->
  sound lb (g2_check_is_on_curve lb m ch b P) (fun _ => True) (fun sg _ => forall A, gcarried (avs sg) P A -> on_twist A) /\
  sound lb (g2_load_private_unchecked lb m ch A) gshape (fun sg o => exists B, gcarried (avs sg) o B) /\
  sound lb (g2_load_private lb m ch b A) gshape (fun sg o => exists B, on_twist B /\ gcarried (avs sg) o B).
Proof.
  intros P A KP. split; [|split].
  - pose proof (G_onc lb m Hp Hlb Hlb2 Hm1 ch n k HN HK xi0 Hxi1 Hroom HB b (gcells P) T False P (incl_refl _) KP ltac:(intros [])) as H. snd H.
    intros sg _ _ R B HB'. apply (R False B), cg, HB'.
  - pose proof (G_load lb m Hp Hlb Hlb2 Hm1 ch n k HN HK [] T False A) as H. snd H.
    intros sg o _ (B & R & _). exists B. apply (gc False), R. intros [].
  - pose proof (G_load_private lb m Hp Hlb Hlb2 Hm1 ch n k HN HK xi0 Hxi1 Hroom HB b [] T False A ltac:(intros [])) as H. snd H.
    intros sg o _ (B & O & R & _). exists B. split; [exact O|]. apply (gc False), R. intros [].
Qed.
Theorem C83_curve_complete : forall (P : g2pt) (A : pt2), on_twist A ->
  (hgcarried P A -> comp lb (oks (gcells P)) (g2_check_is_on_curve lb m ch b P) (fun _ => True) (fun _ _ => True)) /\
  comp lb (fun _ => True) (g2_load_private lb m ch b A) (fun o => hgcarried o A) (fun rho o => oks (gcells o) rho).
Proof.
  intros P A O. split.
  - intros HA. destruct (hgs _ _ HA) as [KP GP]. pose proof (hg _ _ HA) as RA.
    pose proof (G_onc lb m Hp Hlb Hlb2 Hm1 ch n k HN HK xi0 Hxi1 Hroom HB b (gcells P) T True P (incl_refl _) KP ltac:(intros _ _; exists A; auto)) as H. cmp H.
  - pose proof (G_load_private lb m Hp Hlb Hlb2 Hm1 ch n k HN HK xi0 Hxi1 Hroom HB b [] T True A ltac:(auto)) as H. cmp H.
    intros o (Ko & Go & B & OB & R & E). rewrite <- (E eq_refl). apply gh; auto.
Qed.
(** strict addition and subtraction refuse operands of equal x *)
Theorem C83_strict_sound : forall (sP sQ : bool) (P Q : g2pt), gshape P -> gshape Q ->
  sound lb (g2_add_unequal_strict lb m ch hint2 sP sQ P Q) gshape (fun sg o => forall A B, gcmp sP (avs sg) P A -> gcmp sQ (avs sg) Q B -> fst A <> fst B /\ exists U, pt_add A B = Some U /\ gcarried (avs sg) o U) /\
  sound lb (g2_sub_unequal_strict lb m ch neghint2 sP sQ P Q) gshape (fun sg o => forall A B, gcmp sP (avs sg) P A -> gcmp sQ (avs sg) Q B -> fst A <> fst B /\ exists U, pt_add A (pt_neg B) = Some U /\ gcarried (avs sg) o U) /\
  sound lb (g2_into_strict_point lb ch P) gshape (fun sg o => forall A, gcarried (avs sg) P A -> gcmp true (avs sg) o A).
Proof.
  intros sP sQ P Q KP KQ. split; [|split].
  - pose proof (G_add_strict lb m Hp Hlb Hlb2 Hm1 ch n k HN HK xi0 Hxi Hroom HB hint2 Hm H3 Hh2 (gcells P ++ gcells Q) T False sP sQ P Q ltac:(apply incl_appl, incl_refl) ltac:(apply incl_appr, incl_refl) KP KQ ltac:(intros [])) as H. snd H.
    intros sg o _ R A B HA HB'. destruct (R False A B) as (U & ES & GS); [now apply optc|now apply optc|]. split; [eapply pt_add_neq; eauto|]. exists U. split; [exact ES|eapply gc; eauto].
  - pose proof (G_sub_strict lb m Hp Hlb Hlb2 Hm1 ch n k HN HK xi0 Hxi Hroom HB Hm H3 neghint2 Hn2 (gcells P ++ gcells Q) T False sP sQ P Q ltac:(apply incl_appl, incl_refl) ltac:(apply incl_appr, incl_refl) KP KQ ltac:(intros [])) as H. snd H.
    intros sg o _ R A B HA HB'. destruct (R False A B) as (U & ES & GS); [now apply optc|now apply optc|]. split; [exact (pt_add_neq _ A (pt_neg B) U ES)|]. exists U. split; [exact ES|eapply gc; eauto].
  - pose proof (G_strict lb m Hp Hlb Hlb2 Hm1 ch n k HN HK (gcells P) T False P (incl_refl _) KP ltac:(intros [])) as H. snd H.
    intros sg o _ R A HA. eapply strc, (R False A), cg, HA.
Qed.
(** ** Sums in the group *)
Let onc A : on_twist A -> tonc m b (Some A). Proof. destruct A as [x y]. intros H. exact H. Qed.
Let some_inj {X} (x y : X) : Some x = Some y -> x = y. Proof. congruence. Qed.
Lemma pt_add_tadd (A B S : pt2) : pt_add A B = Some S -> tadd m (Some A) (Some B) = Some S.
Proof.
  intros E. pose proof (pt_add_neq _ A B S E) as N. unfold pt_add in E. destruct (MillerSpec.same_x (fst A) (fst B)) eqn:ES; [discriminate|].
  destruct A as [x1 y1], B as [x2' y2]. cbn [fst Datatypes.snd] in *. unfold tadd. rewrite (proj2 (x2_eqb_neq m _ _) N). exact E.
Qed.
Let onc_some S : tonc m b (Some S) -> on_twist S. Proof. destruct S as [x y]. intros H. exact H. Qed.
Let onc_of (X : tpt m) (U : pt2) : X = Some U -> tonc m b X -> on_twist U. Proof. intros -> H. exact (onc_some _ H). Qed.
Let tsum_onc As : Forall on_twist As -> tonc m b (tsum As).
Proof. induction 1 as [|A As O _ IH]; [exact Logic.I|]. cbn [tsum fold_right]. apply (tadd_onc m Hm Hm3 H3 b); [now apply onc|exact IH]. Qed.
Lemma chain_tadd : forall Bs A S, on_twist A -> Forall on_twist Bs -> chain A Bs = Some S -> on_twist S /\ tadd m (Some A) (tsum Bs) = Some S.
Proof.
  induction Bs as [|B Bs IH]; intros A S OA OB E; cbn [chain] in E.
  - apply some_inj in E. subst S. split; [exact OA|]. cbn [tsum fold_right]. apply tadd_0_r.
  - inversion OB as [|? ? O1 O2]; subst. destruct (pt_add A B) as [U|] eqn:EU; [|discriminate]. pose proof (pt_add_tadd _ _ _ EU) as EU'.
    assert (OU : on_twist U). { apply (onc_of _ _ EU'). apply (tadd_onc m Hm Hm3 H3 b); now apply onc. }
    destruct (IH U S OU O2 E) as [OS ES]. split; [exact OS|]. cbn [tsum fold_right]. change (fold_right (fun A S => tadd m (Some A) S) None Bs) with (tsum Bs).
    exact (eq_trans (eq_sym (tadd_assoc m Hm Hm3 H3 b Hb (Some A) (Some B) (tsum Bs) (onc _ OA) (onc _ O1) (tsum_onc _ O2))) (eq_trans (f_equal (fun X => tadd m X (tsum Bs)) EU') ES)).
Qed.
Let psums_chain Bs : forall A, psums m A Bs = chain A Bs. Proof. induction Bs as [|B Bs IH]; intros A; [reflexivity|]. cbn [psums chain]. destruct (pt_add A B); auto. Qed.
Let strip R Bs S U : on_twist R -> Forall on_twist Bs -> chain R Bs = Some S -> pt_add S (pt_neg R) = Some U -> tsum Bs = Some U.
Proof.
  intros OR OB ES EU. destruct (chain_tadd _ _ _ OR OB ES) as [OS E]. apply pt_add_tadd in EU. pose proof (tsum_onc _ OB) as OT. pose proof (onc _ OR) as OR'.
  assert (EN : (Some (pt_neg R) : tpt m) = tneg m (Some R)) by now destruct R.
  transitivity (tadd m (Some S) (Some (pt_neg R))); [|exact EU]. transitivity (tadd m (tadd m (Some R) (tsum Bs)) (tneg m (Some R))); [|exact (eq_sym (eq_trans (f_equal (tadd m (Some S)) EN) (f_equal (fun X => tadd m X (tneg m (Some R))) (eq_sym E))))].
  transitivity (tadd m (tadd m (tsum Bs) (Some R)) (tneg m (Some R))); [|exact (f_equal (fun X => tadd m X (tneg m (Some R))) (tadd_comm m Hm Hm3 H3 b _ _ OT OR'))].
  transitivity (tadd m (tsum Bs) (tadd m (Some R) (tneg m (Some R)))); [|exact (eq_sym (tadd_assoc m Hm Hm3 H3 b Hb _ _ _ OT OR' (tneg_onc m b _ OR')))].
  exact (eq_sym (eq_trans (f_equal (tadd m (tsum Bs)) (tadd_neg_r m (Some R))) (tadd_0_r m _))).
Qed.
Theorem C83_sum_sound : forall (R : pt2) (points : list g2pt), Forall gshape points ->
  sound lb (g2_sum lb m ch hint2 neghint2 b R points) gshape (fun sg o => forall As, Forall2 (fun P A => gcarried (avs sg) P A /\ on_twist A) points As -> exists U, gcarried (avs sg) o U /\ on_twist U /\ tsum As = Some U).
Proof.
  intros R points KP.
  pose proof (G_sum lb m Hp Hlb Hlb2 Hm1 ch n k HN HK xi0 Hxi1 Hxi Hroom HB hint2 Hm H3 Hh2 b neghint2 Hn2 (flat_map gcells points) T False R points) as H.
  assert (CP : forall P, In P points -> incl (PairOps.gcells P) (flat_map gcells points)). { intros P HP x Hx. apply in_flat_map. exists P. auto. }
  specialize (H CP KP ltac:(intros [])). snd H.
  intros sg o _ (R' & OR & _ & RR) As HAs.
  assert (HG : Forall2 (gred m n False (avs sg)) points As) by (revert HAs; apply F2_impl; intros P A [G _]; now apply cg).
  assert (OA : Forall on_twist As). { clear - HAs. induction HAs as [|P A Ps As [_ O] _ IH]; constructor; auto. }
  destruct (RR False As ltac:(intros []) HG) as (S & U & ES & EU & GU). rewrite psums_chain in ES. exists U. split; [eapply gc; eauto|].
  pose proof (strip R' As S U OR OA ES EU) as ET. split; [|exact ET]. apply (onc_of _ _ ET), tsum_onc, OA.
Qed.
Theorem C83_sum_complete : forall (R : pt2) (points : list g2pt) (As : list pt2) (S : pt2), on_twist R -> Forall on_twist As -> Forall2 hgcarried points As -> chain R As = Some S -> fst S <> fst R ->
  comp lb (oks (flat_map gcells points)) (g2_sum lb m ch hint2 neghint2 b R points) (fun o => exists U, hgcarried o U /\ tsum As = Some U) (fun rho o => oks (gcells o) rho).
Proof.
  intros R points As S OR OA HAs ES N.
  assert (KP : Forall gshape points /\ Forall good (flat_map gcells points)).
  { clear - HAs hgs. induction HAs as [|P A Ps As H _ [IH1 IH2]]; [split; constructor|]. destruct (hgs _ _ H) as [K G]. split; [constructor; auto|]. cbn [flat_map]. apply Forall_app; auto. }
  destruct KP as [KP GP]. assert (HG : Forall2 (gred m n True hval) points As) by (revert HAs; apply F2_impl; intros P A G; now apply hg).
  pose proof (G_sum lb m Hp Hlb Hlb2 Hm1 ch n k HN HK xi0 Hxi1 Hxi Hroom HB hint2 Hm H3 Hh2 b neghint2 Hn2 (flat_map gcells points) T True R points) as H.
  assert (CP : forall P, In P points -> incl (PairOps.gcells P) (flat_map gcells points)). { intros P HP x Hx. apply in_flat_map. exists P. auto. }
  specialize (H CP KP). assert (HH : True -> T hval -> on2 m b R /\ exists Bs U, Forall2 (gred m n True hval) points Bs /\ psums m R Bs = Some U /\ fst U <> fst R).
  { intros _ _. split; [exact OR|]. exists As, S. rewrite psums_chain. auto. }
  specialize (H HH). cmp H.
  intros o (Ko & Go & R' & _ & E & RR). destruct (RR True As ltac:(reflexivity) HG) as (S' & U & ES' & EU & GU). rewrite (E eq_refl) in ES', EU. rewrite psums_chain, ES in ES'. apply some_inj in ES'. subst S'.
  exists U. split; [now apply gh|]. exact (strip R As S U OR OA ES EU).
Qed.
(** ** C84: the aggregated BLS signature *)
Context (bx : Z) (Hbx : 0 < bx <= 2 ^ 63) (Hq : Z.pos m = 36 * bx ^ 4 + 36 * bx ^ 3 + 24 * bx ^ 2 + 6 * bx + 1) (naf : list Z) (b1 : F m) (Hb1 : b1 <> F0).
Notation EXP := ((q ^ 12 - 1) / Z.to_N (group_order bx))%N.
Notation digits naf := (drop_zeros (rev naf)).
Theorem C84_aggregate_sound : forall (R1 : F m * F m) (R2 : pt2) (g1 : ecpt) (sigs : list g2pt) (pks : list ecpt) (msg : g2pt), pshape g1 -> Forall gshape sigs -> Forall pshape pks -> gshape msg -> prime (group_order bx) ->
  sound lb (bls_signature_verify lb m ch xi0 ftab hint2 neghint2 hint12 naf bx b1 b R1 R2 g1 sigs pks msg) (fun _ => True)
    (fun sg o => length sigs = length pks /\ sigs <> [] /\ forall G B As Ks, pcarried (avs sg) g1 G -> gcarried (avs sg) msg B ->
       Forall2 (fun P A => gcarried (avs sg) P A /\ on_twist A) sigs As -> Forall2 (fun P K => pcarried (avs sg) P K /\ EcGroup.onc2 m b1 (fst K) (Datatypes.snd K)) pks Ks ->
       exists A K, tsum As = Some A /\ PropsMsm.psum m (map Some Ks) = Some K /\
         forall w1 w2, miller xi0 A G (digits naf) = Some w1 -> miller xi0 B K (digits naf) = Some w2 -> w1 <> w6_0 -> w2 <> w6_0 ->
           (avs sg o = F1 -> w1 ^^ EXP = w2 ^^ EXP) /\ (w1 ^^ EXP <> w2 ^^ EXP -> avs sg o = F0)).
Proof.
  intros R1 R2 g1 sigs pks msg KG KS KK KM Pr. unfold bls_signature_verify.
  apply sound_assert_bind. intros E1. apply Nat.eqb_eq in E1. apply sound_assert_bind. intros E2. apply sound_assert_bind. intros _.
  eapply sound_bind; [exact (C83_sum_sound R2 sigs KS)|]. cbv beta. intros sa Ksa.
  assert (HE1 : (Nat.max (lg + 2 * n + 5) (2 * n + bit_length (Z.of_nat k)) + lb + 2 <= CAPACITY p)%nat) by (unfold ExtProofs.room in Hroom; lia).
  assert (HE2 : 64 * (M2 * M2) < W). { assert (MP : 0 < M2) by (apply Z.pow_pos_nonneg; lia). revert MP HB Hxi1. generalize M2 (Z.abs xi0) W. clear. intros; nia. }
  eapply sound_bind; [exact (C59_sum_sound p m lb Hp Hlb Hlb2 Hm Hm3 n k ch HN HK HE1 HE2 b1 Hb1 (fst R1) (Datatypes.snd R1) pks KK)|]. cbv beta. intros pa Kpa.
  eapply sound_weaken; [exact (C82_bls_sound p m lb Hp Hlb Hlb2 Hm n k ch HN HK xi0 Hxi1 Hxi Hroom HB H3' H6 Hz6 ftab Htab bx Hbx Hq naf g1 sa pa msg KG Ksa Kpa KM Pr)|auto|]. cbv beta.
  intros sg o _ RV RP RS. split; [exact E1|]. split; [intros ->; discriminate E2|]. intros G B As Ks HG HB' HAs HKs.
  destruct (RS As HAs) as (A & GA & _ & EA). destruct (RP (map Some Ks)) as (x & y & GK & EK).
  { clear - HKs. induction HKs as [|P K Ps Ks [C O] _ IH]; [constructor|]. cbn [map]. constructor; [|exact IH]. destruct K as [u v]. exists u, v. split; [reflexivity|]. split; [exact C|exact O]. }
  exists A, (x, y). split; [exact EA|]. split; [exact EK|]. intros w1 w2 M1 M2' N1 N2. exact (RV G A (x, y) B w1 w2 HG GA GK HB' M1 M2' N1 N2).
Qed.
(** the honest prover's circuit accepts exactly the signatures that satisfy the equation, when the sums meet no exceptional case and every value that gets
    compressed can be decompressed (as in C82) *)
Theorem C84_aggregate_complete : forall (R1 : F m * F m) (R2 : pt2) (g1 : ecpt) (sigs : list g2pt) (pks : list ecpt) (msg : g2pt) (G : F m * F m) (B : pt2) (As : list pt2) (Ks : list (F m * F m)) (SA A : pt2) (SK K : F m * F m) (w1 w2 : w6),
  zcap (p:=p) n k -> naf_ok naf -> hd 0 (digits naf) = 1 -> length sigs = length pks -> sigs <> [] ->
  hpcarried p m n k g1 G -> hgcarried msg B ->
  Forall2 hgcarried sigs As -> on_twist R2 -> Forall on_twist As -> chain R2 As = Some SA -> fst SA <> fst R2 -> tsum As = Some A ->
  Forall2 (hpcarried p m n k) pks Ks -> EcGroup.onc2 m b1 (fst R1) (Datatypes.snd R1) -> Forall (fun K => EcGroup.onc2 m b1 (fst K) (Datatypes.snd K)) Ks ->
  esums m (fst R1) (Datatypes.snd R1) Ks = Some SK -> fst SK <> fst R1 -> PropsMsm.psum m (map Some Ks) = Some K ->
  miller xi0 A G (digits naf) = Some w1 -> miller xi0 B K (digits naf) = Some w2 -> w1 <> w6_0 -> w2 <> w6_0 ->
  (forall w1', miller xi0 (pt_neg A) G (digits naf) = Some w1' -> forall j, (1 <= j <= (Z.to_N bx + 1) * Z.to_N bx * Z.to_N bx)%N -> decompressible m ((wmul w1' w2 ^^ ((q ^ 6 - 1) * (q ^ 2 + 1))) ^^ j)) ->
  comp lb (oks (PropsPairing.pcells p g1 ++ flat_map gcells sigs ++ flat_map (PropsPairing.pcells p) pks ++ gcells msg)) (bls_signature_verify lb m ch xi0 ftab hint2 neghint2 hint12 naf bx b1 b R1 R2 g1 sigs pks msg)
    (fun o => good o /\ (w1 ^^ EXP = w2 ^^ EXP -> hval o = F1) /\ (w1 ^^ EXP <> w2 ^^ EXP -> hval o = F0)) (fun rho o => av_ok rho o).
Proof.
  intros R1 R2 g1 sigs pks msg G B As Ks SA A SK K w1 w2 HZ HD Hd EL NE HG HB' HAs OR OA ES NS EA HKs OR1 OK EK NK EP E1 E2 N1 N2 D. unfold bls_signature_verify.
  assert (L0 : negb (Nat.eqb (length sigs) 0) = true) by (destruct sigs; [congruence|reflexivity]).
  eapply comp_bind with (H1 := fun _ => True); [apply comp_assert; now apply Nat.eqb_eq|intros rho X; exact Logic.I|]. intros [] _. cbv beta.
  eapply comp_bind with (H1 := fun _ => True); [apply comp_assert; exact L0|intros rho X; exact Logic.I|]. intros [] _. cbv beta.
  eapply comp_bind with (H1 := fun _ => True); [apply comp_assert; now rewrite <- EL|intros rho X; exact Logic.I|]. intros [] _. cbv beta.
  assert (HE1 : (Nat.max (lg + 2 * n + 5) (2 * n + bit_length (Z.of_nat k)) + lb + 2 <= CAPACITY p)%nat) by (unfold ExtProofs.room in Hroom; lia).
  assert (HE2 : 64 * (M2 * M2) < W). { assert (MP : 0 < M2) by (apply Z.pow_pos_nonneg; lia). revert MP HB Hxi1. generalize M2 (Z.abs xi0) W. clear. intros; nia. }
  eapply comp_bind; [exact (C83_sum_complete R2 sigs As SA OR OA HAs ES NS)| |].
  { cbv beta. intros rho [[[X _] _] _]. apply Forall_app in X as [_ X]. apply Forall_app in X as [X _]. exact X. }
  cbv beta. intros sa (A' & HA & EA'). rewrite EA in EA'. apply some_inj in EA'. subst A'.
  eapply comp_bind; [exact (C59_sum_complete p m lb Hp Hlb Hlb2 Hm Hm3 n k ch HN HK HE1 HE2 b1 Hb1 (fst R1) (Datatypes.snd R1) pks Ks (fst SK) (Datatypes.snd SK) OR1 OK HKs ltac:(rewrite EK; destruct SK; reflexivity) NK)| |].
  { cbv beta. intros rho [[[[X _] _] _] _]. apply Forall_app in X as [_ X]. apply Forall_app in X as [_ X]. apply Forall_app in X as [X _]. exact X. }
  cbv beta. intros pa (u & v & HP & EP'). rewrite EP in EP'. apply some_inj in EP'. subst K.
  eapply comp_weaken; [exact (C82_bls_complete p m lb Hp Hlb Hlb2 Hm n k ch HN HK xi0 Hxi1 Hxi Hroom HB H3' H6 Hz6 ftab Htab bx Hbx Hq naf g1 sa pa msg G (u, v) A B w1 w2 HZ HD Hd HG HA HP HB' E1 E2 N1 N2 D)| | |]; cbv beta; auto.
  intros rho [[[[[X _] _] _] Y] Z']. apply Forall_app in X as [X1 X]. apply Forall_app in X as [_ X]. apply Forall_app in X as [_ X4].
  apply Forall_app; split; [exact X1|]. apply Forall_app; split; [exact Y|]. apply Forall_app; split; [exact Z'|exact X4].
Qed.
Let hpc P T' : hpcarried p m n k P T' = PropsEcc.hat_pt m n k P (fst T') (Datatypes.snd T'). Proof. exact eq_refl. Qed.
Let F2r {A B} (P : B -> Prop) : forall (l : list A) (l' : list B), Forall2 (fun _ y => P y) l l' -> Forall P l'.
Proof. induction 1; constructor; auto. Qed.
Let load_s v : sound lb (g2_load_private lb m ch b v) gshape (fun sg o => exists B, on_twist B /\ gcarried (avs sg) o B).
Proof.
  pose proof (G_load_private lb m Hp Hlb Hlb2 Hm1 ch n k HN HK xi0 Hxi1 Hroom HB b [] T False v ltac:(intros [])) as H. snd H.
  intros sg o _ (B & O & R & _). exists B. split; [exact O|]. apply (gc False), R. intros [].
Qed.
(** the whole function, which takes the points as private inputs: whatever the prover assigns, the points it used lie on the curves and the flag speaks about them.
    The points do not leave the function: its caller learns nothing about which they are *)
Theorem C84_points_sound : forall (R1 : F m * F m) (R2 : pt2) (g1v : F m * F m) (sigv : list pt2) (pkv : list (F m * F m)) (msgv : pt2), prime (group_order bx) ->
  sound lb (bls_signature_verify_points lb m ch xi0 ftab hint2 neghint2 hint12 naf bx b1 b R1 R2 g1v sigv pkv msgv) (fun _ => True)
    (fun sg o => length sigv = length pkv /\ sigv <> [] /\ exists G B As Ks A K,
       EcGroup.onc2 m b1 (fst G) (Datatypes.snd G) /\ on_twist B /\ Forall on_twist As /\ Forall (fun K => EcGroup.onc2 m b1 (fst K) (Datatypes.snd K)) Ks /\ length As = length sigv /\ length Ks = length pkv /\
       tsum As = Some A /\ PropsMsm.psum m (map Some Ks) = Some K /\
       forall w1 w2, miller xi0 A G (digits naf) = Some w1 -> miller xi0 B K (digits naf) = Some w2 -> w1 <> w6_0 -> w2 <> w6_0 ->
         (avs sg o = F1 -> w1 ^^ EXP = w2 ^^ EXP) /\ (w1 ^^ EXP <> w2 ^^ EXP -> avs sg o = F0)).
Proof.
  intros R1 R2 g1v sigv pkv msgv Pr. unfold bls_signature_verify_points.
  apply sound_assert_bind. intros E1. apply Nat.eqb_eq in E1. apply sound_assert_bind. intros E2. apply sound_assert_bind. intros _.
  assert (HE1 : (Nat.max (lg + 2 * n + 5) (2 * n + bit_length (Z.of_nat k)) + lb + 2 <= CAPACITY p)%nat) by (unfold ExtProofs.room in Hroom; lia).
  assert (HE2 : 64 * (M2 * M2) < W). { assert (MP : 0 < M2) by (apply Z.pow_pos_nonneg; lia). revert MP HB Hxi1. generalize M2 (Z.abs xi0) W. clear. intros; nia. }
  eapply sound_bind; [exact (proj1 (C55_load_private p m lb Hp Hlb Hlb2 Hm3 n k ch HN HK HE1 HE2 b1 (fst g1v) (Datatypes.snd g1v)))|]. cbv beta. intros g1 Kg.
  eapply sound_bind; [exact (load_s msgv)|]. cbv beta. intros msg Km.
  eapply sound_bind; [apply sound_mapM with (P := fun _ P => gshape P) (Q := fun sg _ P => exists A, on_twist A /\ gcarried (avs sg) P A); intros v _; exact (load_s v)|]. cbv beta. intros sigs Ks1. apply F2r in Ks1 as KS.
  eapply sound_bind; [exact (C83_sum_sound R2 sigs KS)|]. cbv beta. intros sa Ksa.
  eapply sound_bind; [apply sound_mapM with (P := fun _ P => pshape P) (Q := fun sg _ P => exists u v, PropsEcc.at_pt m n (avs sg) P u v /\ EcGroup.onc2 m b1 u v); intros v _; exact (proj1 (C55_load_private p m lb Hp Hlb Hlb2 Hm3 n k ch HN HK HE1 HE2 b1 (fst v) (Datatypes.snd v)))|]. cbv beta. intros pks Ks2. apply F2r in Ks2 as KK.
  eapply sound_bind; [exact (C59_sum_sound p m lb Hp Hlb Hlb2 Hm Hm3 n k ch HN HK HE1 HE2 b1 Hb1 (fst R1) (Datatypes.snd R1) pks KK)|]. cbv beta. intros pa Kpa.
  eapply sound_weaken; [exact (C82_bls_sound p m lb Hp Hlb Hlb2 Hm n k ch HN HK xi0 Hxi1 Hxi Hroom HB H3' H6 Hz6 ftab Htab bx Hbx Hq naf g1 sa pa msg Kg Ksa Kpa Km Pr)|auto|]. cbv beta.
  intros sg o _ RV RP RK RS RA (B & OB & GB) (gu & gv & GG & OG). split; [exact E1|]. split; [intros ->; discriminate E2|].
  assert (XA : exists As, length As = length sigv /\ Forall on_twist As /\ Forall2 (fun P A => gcarried (avs sg) P A /\ on_twist A) sigs As).
  { clear - RA. induction RA as [|v P vs Ps (A & O & G) _ (As & L & F & H)]; [exists []; split; [reflexivity|split; constructor]|]. exists (A :: As). split; [cbn [length]; lia|]. split; constructor; auto. }
  assert (XK : exists Ks, length Ks = length pkv /\ Forall (fun K => EcGroup.onc2 m b1 (fst K) (Datatypes.snd K)) Ks /\ Forall2 (fun P K => pcarried (avs sg) P K /\ EcGroup.onc2 m b1 (fst K) (Datatypes.snd K)) pks Ks).
  { clear - RK. induction RK as [|v P vs Ps (u & w & G & O) _ (As & L & F & H)]; [exists []; split; [reflexivity|split; constructor]|]. exists ((u, w) :: As). split; [cbn [length]; lia|]. split; constructor; auto. }
  destruct XA as (As & LA & OA & HAs). destruct XK as (Ks & LK & OK & HKs).
  destruct (RS As HAs) as (A & GA & _ & EA). destruct (RP (map Some Ks)) as (x & y & GK & EK).
  { clear - HKs. induction HKs as [|P K Ps Ks [C O] _ IH]; [constructor|]. cbn [map]. constructor; [|exact IH]. destruct K as [u v]. exists u, v. split; [reflexivity|]. split; [exact C|exact O]. }
  exists (gu, gv), B, As, Ks, A, (x, y). split; [exact OG|]. split; [exact OB|]. split; [exact OA|]. split; [exact OK|]. split; [exact LA|]. split; [exact LK|]. split; [exact EA|]. split; [exact EK|].
  intros w1 w2 M1 M2' N1 N2. exact (RV (gu, gv) A (x, y) B w1 w2 GG GA GK GB M1 M2' N1 N2).
Qed.
Theorem C84_points_complete : forall (R1 : F m * F m) (R2 : pt2) (g1v : F m * F m) (sigv : list pt2) (pkv : list (F m * F m)) (msgv SA A : pt2) (SK K : F m * F m) (w1 w2 : w6),
  zcap (p:=p) n k -> naf_ok naf -> hd 0 (digits naf) = 1 -> length sigv = length pkv -> sigv <> [] ->
  EcGroup.onc2 m b1 (fst g1v) (Datatypes.snd g1v) -> on_twist msgv ->
  on_twist R2 -> Forall on_twist sigv -> chain R2 sigv = Some SA -> fst SA <> fst R2 -> tsum sigv = Some A ->
  EcGroup.onc2 m b1 (fst R1) (Datatypes.snd R1) -> Forall (fun K => EcGroup.onc2 m b1 (fst K) (Datatypes.snd K)) pkv ->
  esums m (fst R1) (Datatypes.snd R1) pkv = Some SK -> fst SK <> fst R1 -> PropsMsm.psum m (map Some pkv) = Some K ->
  miller xi0 A g1v (digits naf) = Some w1 -> miller xi0 msgv K (digits naf) = Some w2 -> w1 <> w6_0 -> w2 <> w6_0 ->
  (forall w1', miller xi0 (pt_neg A) g1v (digits naf) = Some w1' -> forall j, (1 <= j <= (Z.to_N bx + 1) * Z.to_N bx * Z.to_N bx)%N -> decompressible m ((wmul w1' w2 ^^ ((q ^ 6 - 1) * (q ^ 2 + 1))) ^^ j)) ->
  comp lb (fun _ => True) (bls_signature_verify_points lb m ch xi0 ftab hint2 neghint2 hint12 naf bx b1 b R1 R2 g1v sigv pkv msgv)
    (fun o => good o /\ (w1 ^^ EXP = w2 ^^ EXP -> hval o = F1) /\ (w1 ^^ EXP <> w2 ^^ EXP -> hval o = F0)) (fun rho o => av_ok rho o).
Proof.
  intros R1 R2 g1v sigv pkv msgv SA A SK K w1 w2 HZ HD Hd EL NE Og Om OR OA ES NS EA OR1 OK EK NK EP E1 E2 N1 N2 D. unfold bls_signature_verify_points.
  assert (L0 : negb (Nat.eqb (length sigv) 0) = true) by (destruct sigv; [congruence|reflexivity]).
  eapply comp_bind with (H1 := fun _ => True); [apply comp_assert; now apply Nat.eqb_eq|intros rho X; exact Logic.I|]. intros [] _. cbv beta.
  eapply comp_bind with (H1 := fun _ => True); [apply comp_assert; exact L0|intros rho X; exact Logic.I|]. intros [] _. cbv beta.
  eapply comp_bind with (H1 := fun _ => True); [apply comp_assert; now rewrite <- EL|intros rho X; exact Logic.I|]. intros [] _. cbv beta.
  assert (HE1 : (Nat.max (lg + 2 * n + 5) (2 * n + bit_length (Z.of_nat k)) + lb + 2 <= CAPACITY p)%nat) by (unfold ExtProofs.room in Hroom; lia).
  assert (HE2 : 64 * (M2 * M2) < W). { assert (MP : 0 < M2) by (apply Z.pow_pos_nonneg; lia). revert MP HB Hxi1. generalize M2 (Z.abs xi0) W. clear. intros; nia. }
  assert (LP : forall T', EcGroup.onc2 m b1 (fst T') (Datatypes.snd T') -> comp lb (fun _ => True) (ecc_load_private lb m ch b1 (fst T') (Datatypes.snd T')) (fun P => hpcarried p m n k P T') (fun rho P => oks (PropsPairing.pcells p P) rho)).
  { intros T' O. exact (proj1 (proj2 (proj2 (C55_load_private p m lb Hp Hlb Hlb2 Hm3 n k ch HN HK HE1 HE2 b1 (fst T') (Datatypes.snd T'))) O)). }
  assert (LG : forall A, on_twist A -> comp lb (fun _ => True) (g2_load_private lb m ch b A) (fun P => hgcarried P A) (fun rho P => oks (gcells P) rho)).
  { intros A' O. exact (proj2 (C83_curve_complete (mkG2 [] []) A' O)). }
  eapply comp_bind; [exact (LP g1v Og)|intros; exact Logic.I|]. cbv beta. intros g1 HG.
  eapply comp_bind; [exact (LG msgv Om)|intros; exact Logic.I|]. cbv beta. intros msg HB'.
  eapply comp_bind; [apply comp_mapM with (H := fun _ => True) (P := fun A P => hgcarried P A) (Q := fun rho P => oks (gcells P) rho); intros v Hv; apply LG; exact (proj1 (Forall_forall _ _) OA v Hv)|intros; exact Logic.I|]. cbv beta. intros sigs HS.
  assert (HAs : Forall2 hgcarried sigs sigv) by (clear - HS; induction HS; constructor; auto).
  assert (FM : forall {X Y} (f : X -> list Y) (P : Y -> Prop) (l : list X), Forall (fun x => Forall P (f x)) l -> Forall P (flat_map f l)). { intros X Y f P l. induction 1; cbn [flat_map]; [constructor|]. apply Forall_app; auto. }
  eapply comp_bind; [exact (C83_sum_complete R2 sigs sigv SA OR OA HAs ES NS)| |].
  { cbv beta. intros rho [_ X]. apply FM. exact X. }
  cbv beta. intros sa (A' & HA & EA'). rewrite EA in EA'. apply some_inj in EA'. subst A'.
  eapply comp_bind; [apply comp_mapM with (H := fun _ => True) (P := fun T' P => hpcarried p m n k P T') (Q := fun rho P => oks (PropsPairing.pcells p P) rho); intros v Hv; apply LP; exact (proj1 (Forall_forall _ _) OK v Hv)|intros; exact Logic.I|]. cbv beta. intros pks HP0.
  assert (HKs : Forall2 (hpcarried p m n k) pks pkv) by (clear - HP0; induction HP0; constructor; auto).
  eapply comp_bind; [exact (C59_sum_complete p m lb Hp Hlb Hlb2 Hm Hm3 n k ch HN HK HE1 HE2 b1 Hb1 (fst R1) (Datatypes.snd R1) pks pkv (fst SK) (Datatypes.snd SK) OR1 OK HKs ltac:(rewrite EK; destruct SK; reflexivity) NK)| |].
  { cbv beta. intros rho [_ X]. apply FM. exact X. }
  cbv beta. intros pa (u & v & HP & EP'). rewrite EP in EP'. apply some_inj in EP'. subst K.
  eapply comp_weaken; [exact (C82_bls_complete p m lb Hp Hlb Hlb2 Hm n k ch HN HK xi0 Hxi1 Hxi Hroom HB H3' H6 Hz6 ftab Htab bx Hbx Hq naf g1 sa pa msg g1v (u, v) A msgv w1 w2 HZ HD Hd HG HA HP HB' E1 E2 N1 N2 D)| | |]; cbv beta; auto.
  intros rho [[[[[[_ X1] X4] _] Y] _] Z']. apply Forall_app; split; [exact X1|]. apply Forall_app; split; [exact Y|]. apply Forall_app; split; [exact Z'|exact X4].
Qed.
End G2Props.
