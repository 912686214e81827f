(** FpChip: carries, multiplication and division. *)
From Coq Require Import ZArith Znumtheory Lia List Bool Ring.
From Verif Require Import Field Spec Context ContextProofs Utils Logic Gate GateProofs ChainProofs IPProofs BitProofs PowProofs IPComp Derived
  Range RangeProofs RangeProofs2 RangeProofs3 RegionGets Calc CalcH RegionPrev RegionLast BigPrims BigNum BigInt BigSpec BigOps BigSel BigCmp BigSub BigCarry BigMod BigCrtNum BigCrt FpChip FpProofs FpProofs2.
Import ListNotations.
Local Open Scope Z_scope.

Section FpProofs3.
Context {p : positive}.
Notation Fp := (F p).
Notation AV := (AV p).
Notation crt := (crt p).
Variables (lb : nat) (m : positive).
Notation env := (env (p:=p)).
Notation hcalc := (hcalc lb).
Hypothesis Hp : prime (Z.pos p).
Hypothesis Hlb : (1 <= lb < 64)%nat.
Hypothesis Hlb2 : (2 * lb <= CAPACITY p)%nat.
Hypothesis Hm : 1 < Z.pos m.
Add Ring Fring : (F_ring p) (morphism (F_morph p), constants [Fcst]).
Add Ring Fringm : (F_ring m) (morphism (F_morph m), constants [Fcst]).
Variables (ch : fpchip p) (n k : nat).
Hypothesis HN : fpchip_new m n k = Some ch.
Hypothesis HK : fp_params (p:=p) lb m n k.
Notation mz := (Z.pos m).

(** the widths for which the carry checks do not wrap around the native modulus *)
Definition fit_mod (b : nat) : Prop := (carry_range_bits lb (check_bits n b (bit_length (Z.of_nat k))) n + n + 2 <= CAPACITY p)%nat.
Definition fit_zero (b : nat) : Prop := (carry_range_bits lb (Nat.max b (2 * n + bit_length (Z.of_nat k))) n + n + 2 <= CAPACITY p)%nat.
(** the magnitude up to which the CRT checks determine an integer *)
Definition fit_val (x : Z) : Prop := 8 * Z.abs x < 2 ^ Z.of_nat (n * k + NUM_BITS p).

Lemma sizes : sizes_ok (p:=p) n k mz. Proof. now destruct HK. Qed.
Lemma kbits : k_bits (modp_of ch) = bit_length (Z.of_nat k).
Proof. destruct (ch_ok lb m Hp Hlb Hlb2 Hm ch n k HN) as (_ & _ & C3 & _). exact C3. Qed.

Lemma h_fp_carry_mod L (Pre : env -> Prop) (Hon : Prop) (a : crt) : cpre L a -> length (c_limbs a) = k -> fit_mod (c_bits a) ->
  (Hon -> Pre hval -> crep n hval a (c_val a) /\ fit_val (c_val a)) ->
  hcalc L Pre Hon (fp_carry_mod lb ch a)
    (fun c => length (c_limbs c) = k /\ c_bits c = n /\ c_val c = c_val a mod mz /\ map hval (c_limbs c) = map (of_Z p) (digits n k (c_val a mod mz)))
    (fun e c => forall x, crep n e a x -> fit_val x -> exists z, proper n e c z /\ z < 2 ^ Z.of_nat (bits mz) /\ (mz | z - x)) ccells.
Proof.
  intros Ca La Hf HH. unfold fp_carry_mod. apply (h_carry_mod_crt lb Hp Hlb Hlb2 (modp_of ch) n k mz (modp_of_ok lb m Hp Hlb Hlb2 Hm ch n k HN HK) sizes); auto.
  - now rewrite kbits.
  - intros _. now destruct HK as (_ & H & _).
Qed.
Lemma h_fp_check_carry_mod_to_zero L (Pre : env -> Prop) (Hon : Prop) (a : crt) : cpre L a -> length (c_limbs a) = k -> fit_zero (c_bits a) ->
  (Hon -> Pre hval -> crep n hval a (c_val a) /\ fit_val (c_val a) /\ c_val a mod mz = 0) ->
  hcalc L Pre Hon (fp_check_carry_mod_to_zero lb ch a) (fun _ => True)
    (fun e _ => forall x, crep n e a x -> fit_val x -> (mz | x)) (fun _ => []).
Proof.
  intros Ca La Hf HH. unfold fp_check_carry_mod_to_zero.
  apply (h_check_carry_mod_to_zero lb Hp Hlb Hlb2 (modp_of ch) n k mz (modp_of_ok lb m Hp Hlb Hlb2 Hm ch n k HN HK) sizes); auto. now rewrite kbits.
Qed.

(** the honest value of a reduced result *)
Lemma carry_hon_proper (c : crt) v z : length (c_limbs c) = k -> map hval (c_limbs c) = map (of_Z p) (digits n k (v mod mz)) -> proper n hval c z -> z = v mod mz.
Proof.
  intros _ EL Hz. pose proof (Z.mod_pos_bound v mz ltac:(lia)). destruct (ch_sizes lb m Hlb Hlb2 n k HK) as (S1 & S2 & S3 & S4 & S5).
  eapply (proper_digits_eq lb m Hlb Hlb2 n k hval c); eauto. lia.
Qed.

(** ** add_constant_no_carry *)
Lemma h_fp_add_constant_no_carry L (Pre : env -> Prop) (Hon : Prop) (a : crt) (c : F m) : cpre L a -> length (c_limbs a) = k ->
  hcalc L Pre Hon (fp_add_constant_no_carry m ch a c)
    (fun o => length (c_limbs o) = k /\ c_bits o = (Nat.max (c_bits a) n + 1)%nat /\ c_val o = c_val a + val c)
    (fun e o => forall x, crep n e a x -> crep n e o (x + val c)) ccells.
Proof.
  intros Ca La. destruct (ch_ok lb m Hp Hlb Hlb2 Hm ch n k HN) as (C1 & C2 & _). destruct (ch_sizes lb m Hlb Hlb2 n k HK) as (S1 & S2 & S3 & S4 & S5).
  pose proof (val_bounds m c) as Bc. unfold fp_add_constant_no_carry, fe_to_biguint. rewrite C1, C2. apply h_lift_bind.
  { intros. unfold decompose_biguint. rewrite decompose_biguint_limbs_correct by lia. cbn. eauto. }
  intros cl Hcl. unfold decompose_biguint in Hcl. rewrite decompose_biguint_limbs_correct in Hcl by lia. injection Hcl as <-.
  rewrite (modulus_correct (p:=p)) by (pose proof (prime_ge_2 _ Hp); lia). apply h_lift_bind. { intros. rewrite biguint_to_fe_some by (apply Z.mod_pos_bound; lia). eauto. }
  intros cn Hcn. rewrite biguint_to_fe_some in Hcn by (apply Z.mod_pos_bound; lia). injection Hcn as <-.
  eapply h_bind.
  { apply h_mapM with (P := fun _ _ => True) (R := fun e xy o => e o = (e (fst xy) + snd xy)%F) (cs := one). intros [u v] Huv. cbn [fst snd].
    eapply h_post; [apply calc_h, (calc_add lb _ _ (Existing u) (Constant v)); cbn; auto| | |]; auto.
    - apply (cpre_limbs _ _ Ca). eapply in_combine_l; eauto.
    - intros o _ z Hz. apply in_or_app; now left. }
  cbv beta. intros limbs Hlen. apply Forall2_len in Hlen. rewrite combine_length, map_length, digits_length, La, Nat.min_id in Hlen.
  eapply h_bind; [apply calc_h, (calc_add lb _ _ (Existing (c_nat a)) (Constant (of_Z p (val c mod Z.pos p)))); cbn; auto|].
  { apply in_or_app. right. now apply cpre_nat. }
  cbv beta. intros nat _. apply h_ret.
  - unfold c_limbs, c_bits. cbn [c_trunc o_limbs o_bits c_val]. auto.
  - unfold ccells, c_limbs. cbn. rewrite flat_map_one. intros z [<-|Hz]; [now left|]. right. apply in_or_app; now left.
  - intros e [[_ EL] EN] x (ls & E1 & E2 & E3 & E4). cbn [qe] in EN.
    assert (Lls : length ls = k). { apply (f_equal (@length _)) in E1. rewrite !map_length in E1. lia. }
    exists (map2 Z.add ls (digits n k (val c))). unfold c_limbs, c_bits. cbn [c_trunc o_limbs o_bits c_nat]. split; [|split; [|split]].
    + pose proof (Forall2_map2 e (fun u v => (e u + v)%F) (c_limbs a) (map (of_Z p) (digits n k (val c))) limbs) as F2.
      rewrite F2; [|rewrite map_length, digits_length; lia|exact EL].
      rewrite map_map2, <- (map2_map (fun u v => (u + v)%F) e (fun v => v)), map_id, E1, map2_map. apply map2_ext. intros u v. now rewrite of_Z_add.
    + pose proof (pow2_le (c_bits a) (Nat.max (c_bits a) n) ltac:(lia)). pose proof (pow2_le n (Nat.max (c_bits a) n) ltac:(lia)).
      rewrite Nat.add_1_r, pow2_S. pose proof (digits_bound n k (val c)) as HB. clear - E2 HB H H0. revert HB. generalize (digits n k (val c)). revert E2.
      unfold c_limbs, c_bits in *. induction 1 as [|l ls Hl HF IH]; intros ds HB; cbn [map2]; [constructor|]. destruct HB as [|d ds Hd HB]; constructor; [lia|auto].
    + rewrite <- Hlen. rewrite La in E3. rewrite U_add by (rewrite digits_length; lia). rewrite undigits_digits. rewrite (Z.mod_small (val c)) by (split; [apply Bc|eapply Z.lt_trans; [apply Bc|exact S3]]).
      destruct E3 as [u Hu]. exists u. lia.
    + rewrite EN, E4, <- of_Z_add. apply of_Z_eq_iff. rewrite Z.add_mod_idemp_r by lia. reflexivity.
Qed.

(** ** mul *)
Lemma h_fp_mul_no_carry L (Pre : env -> Prop) (Hon : Prop) (a b : crt) : cpre L a -> cpre L b -> length (c_limbs a) = k -> length (c_limbs b) = k ->
  hcalc L Pre Hon (fp_mul_no_carry ch a b)
    (fun c => length (c_limbs c) = k /\ c_bits c = (log2_ceil (Z.of_nat k) + c_bits a + c_bits b)%nat /\ c_val c = c_val a * c_val b)
    (fun e c => binop_spec n a b Z.mul e c) ccells.
Proof.
  intros Ca Cb La Lb. pose proof (log2_ok lb m Hp Hlb Hlb2 Hm ch n k HN HK) as HL. destruct (ch_ok lb m Hp Hlb Hlb2 Hm ch n k HN) as (C1 & C2 & C3 & C4 & _).
  unfold fp_mul_no_carry. eapply h_post; [apply (h_mul_crt lb)| | |]; auto.
  - lia.
  - rewrite La. auto.
  - cbv beta. rewrite La, C4. auto.
  - intros c _ z Hz. apply in_or_app. now left.
Qed.
Lemma h_fp_mul L (Pre : env -> Prop) (Hon : Prop) (a b : crt) : cpre L a -> cpre L b -> length (c_limbs a) = k -> length (c_limbs b) = k ->
  fit_mod (log2_ceil (Z.of_nat k) + c_bits a + c_bits b) ->
  (Hon -> Pre hval -> crep n hval a (c_val a) /\ crep n hval b (c_val b) /\ fit_val (c_val a * c_val b)) ->
  hcalc L Pre Hon (fp_mul lb ch a b)
    (fun c => length (c_limbs c) = k /\ c_bits c = n /\ c_val c = (c_val a * c_val b) mod mz /\ map hval (c_limbs c) = map (of_Z p) (digits n k ((c_val a * c_val b) mod mz)))
    (fun e c => forall x y, crep n e a x -> crep n e b y -> fit_val (x * y) -> exists z, proper n e c z /\ z < 2 ^ Z.of_nat (bits mz) /\ (mz | z - x * y)) ccells.
Proof.
  intros Ca Cb La Lb Hf HH. unfold fp_mul. eapply h_bind; [apply h_fp_mul_no_carry; auto|]. cbv beta. intros c (D1 & D2 & D3).
  eapply h_post; [apply h_fp_carry_mod| | |].
  - intros z Hz. apply in_or_app. now left.
  - auto.
  - now rewrite D2.
  - intros Hh [Hpre HB]. destruct (HH Hh Hpre) as (H1 & H2 & H3). rewrite D3. auto.
  - cbv beta. rewrite D3. auto.
  - cbv beta. intros e o _ [Hpre HB] HR x y Hx Hy Hf'. auto.
  - intros o _ z Hz. apply in_or_app. now left.
Qed.

(** ** divide *)
Lemma gav (x : crt) : get_assigned_value m ch x = Some (of_Z m (c_val x)).
Proof.
  destruct (ch_ok lb m Hp Hlb Hlb2 Hm ch n k HN) as (C1 & C2 & C3 & C4 & C5 & C6 & C7 & _). unfold get_assigned_value. rewrite C7.
  pose proof (Z.rem_bound_abs (c_val x) mz ltac:(lia)) as HB. rewrite bigint_to_fe_correct by lia. f_equal. apply of_Z_eq_iff.
  rewrite (Z.quot_rem' (c_val x) mz) at 2. rewrite Z.mul_comm, Z.add_comm, Z.mod_add by lia. reflexivity.
Qed.
(** the quotient assigned by the prover *)
Definition div_val (s : F m) (b : crt) : F m := (s * (if Fis0 (of_Z m (c_val b)) then F0 else Finv (of_Z m (c_val b))))%F.
Lemma div_val_ok (s : F m) (b : crt) : prime mz -> (s = F0 \/ c_val b mod mz <> 0) -> (div_val s b * of_Z m (c_val b))%F = s.
Proof.
  intros Pm H. unfold div_val. destruct (Fis0 (of_Z m (c_val b))) eqn:E0.
  - apply Fis0_true in E0. destruct H as [->|H]; [ring|]. exfalso. apply H. apply (f_equal val) in E0. rewrite val_of_Z, val_0 in E0. exact E0.
  - apply Fis0_false in E0. replace (s * Finv (of_Z m (c_val b)) * of_Z m (c_val b))%F with (s * (Finv (of_Z m (c_val b)) * of_Z m (c_val b)))%F by ring.
    rewrite Finv_l by auto. ring.
Qed.

Section Div.
Variables (L : list AV) (Pre : env -> Prop) (Hon : Prop) (a b : crt).
Hypothesis Ca : cpre L a.
Hypothesis Cb : cpre L b.
Hypothesis La : length (c_limbs a) = k.
Hypothesis Lb : length (c_limbs b) = k.
Hypothesis Hf : fit_zero (Nat.max (log2_ceil (Z.of_nat k) + n + c_bits b) (c_bits a) + 1).
Definition div_fits (x y : Z) : Prop := 8 * (2 ^ Z.of_nat (bits mz) * Z.abs y + Z.abs x) < 2 ^ Z.of_nat (n * k + NUM_BITS p).

Definition div_post (s : F m) (q : crt) : Prop :=
  length (c_limbs q) = k /\ c_bits q = n /\ c_val q = val (div_val s b) /\ map hval (c_limbs q) = map (of_Z p) (digits n k (val (div_val s b))).
Definition div_rel (sg : Z) (e : env) (q : crt) : Prop :=
  forall x y, crep n e a x -> crep n e b y -> div_fits x y -> exists z, proper n e q z /\ z < 2 ^ Z.of_nat (bits mz) /\ (mz | z * y - sg * x).

Lemma fit_sub x y z sg : sg = 1 \/ sg = -1 -> 0 <= z < 2 ^ Z.of_nat (bits mz) -> div_fits x y -> fit_val (z * y - sg * x).
Proof.
  unfold div_fits, fit_val. intros Hs Hz Hd. eapply Z.le_lt_trans; [|exact Hd].
  assert (H1 : Z.abs (z * y) <= 2 ^ Z.of_nat (bits mz) * Z.abs y). { rewrite Z.abs_mul, (Z.abs_eq z) by lia. pose proof (Z.abs_nonneg y). nia. }
  assert (Z.abs (sg * x) = Z.abs x). { destruct Hs; subst sg; lia. } lia.
Qed.

Lemma h_div_gen (sg : Z) (s : F m) (mc : crt -> M p crt) : sg = 1 \/ sg = -1 -> s = of_Z m (sg * c_val a) ->
  (forall L Pre qb, cpre L a -> cpre L qb -> length (c_limbs qb) = k -> hcalc L Pre Hon (mc qb)
     (fun c => length (c_limbs c) = k /\ c_bits c = (Nat.max (c_bits qb) (c_bits a) + 1)%nat /\ c_val c = c_val qb - sg * c_val a)
     (fun e c => binop_spec n qb a (fun u v => u - sg * v) e c) ccells) ->
  (Hon -> prime mz) -> (Hon -> c_val a mod mz = 0 \/ c_val b mod mz <> 0) ->
  (Hon -> Pre hval -> crep n hval a (c_val a) /\ crep n hval b (c_val b) /\ div_fits (c_val a) (c_val b)) ->
  hcalc L Pre Hon (bind (fp_load_private lb m ch (div_val s b)) (fun quot => bind (fp_mul_no_carry ch quot b) (fun qb => bind (mc qb) (fun c =>
     bind (fp_check_carry_mod_to_zero lb ch c) (fun _ => ret quot))))) (div_post s) (div_rel sg) ccells.
Proof.
  intros Hsg Hs Hmc Pm HV HH. destruct (ch_sizes lb m Hlb Hlb2 n k HK) as (S1 & S2 & S3 & S4 & S5).
  pose proof (val_bounds m (div_val s b)) as Bq. pose proof (bits_up mz ltac:(lia)) as Hbits.
  eapply h_bind; [apply (h_fp_load_private lb m Hp Hlb Hlb2 Hm ch n k HN HK)|]. cbv beta. intros q (Q1 & Q2 & Q3 & Q4).
  assert (Hq : forall z, proper n hval q z -> z = val (div_val s b)). { intros z Hz. eapply (proper_digits_eq lb m Hlb Hlb2 n k hval q); eauto. lia. }
  eapply h_bind; [apply h_fp_mul_no_carry; auto|]. { intros z Hz. apply in_or_app. now left. } { now apply cpre_app. }
  cbv beta. intros qb (B1 & B2 & B3).
  eapply h_bind; [apply Hmc; auto|]. { now apply cpre_app, cpre_app. } { intros z Hz. apply in_or_app. now left. }
  cbv beta. intros c (D1 & D2 & D3).
  eapply h_bind; [apply h_fp_check_carry_mod_to_zero|].
  { intros z Hz. apply in_or_app. now left. } { auto. } { rewrite D2, B2, Q2. exact Hf. }
  { intros Hh [[[Hpre (z & Hz & Bz)] HB] HC]. destruct (HH Hh Hpre) as (H1 & H2 & H3). pose proof (Hq z Hz) as ->. rewrite D3, B3, Q3.
    split; [|split].
    - apply HC; auto. apply HB; auto. now apply proper_crep.
    - apply fit_sub; auto. lia.
    - assert (E : of_Z m (val (div_val s b) * c_val b - sg * c_val a) = F0).
      { rewrite of_Z_sub, of_Z_mul, of_Z_val, div_val_ok, Hs; auto; [ring|]. destruct (HV Hh) as [H0|H0]; auto. left. rewrite Hs, of_Z_mul.
        replace (of_Z m (c_val a)) with (@F0 m); [ring|]. apply F_eq. rewrite val_0, val_of_Z. auto. }
      apply (f_equal val) in E. rewrite val_of_Z, val_0 in E. exact E. }
  cbv beta. intros [] _. cbn [app]. apply h_ret.
  - unfold div_post. auto.
  - intros z Hz. apply in_or_app. right. apply in_or_app. right. apply in_or_app. now left.
  - intros e [[[[Hpre (z & Hz & Bz)] HB] HC] HD] x y Hx Hy Hd. exists z. split; auto. split; auto.
    assert (0 <= z) by (pose proof (proper_bound _ _ _ _ Hz); lia).
    apply HD; [|apply fit_sub; auto]. apply HC; auto. apply HB; auto. now apply proper_crep.
Qed.

Lemma h_fp_divide_unsafe : (Hon -> prime mz) -> (Hon -> c_val a mod mz = 0 \/ c_val b mod mz <> 0) ->
  (Hon -> Pre hval -> crep n hval a (c_val a) /\ crep n hval b (c_val b) /\ div_fits (c_val a) (c_val b)) ->
  hcalc L Pre Hon (fp_divide_unsafe lb m ch a b) (div_post (of_Z m (c_val a))) (div_rel 1) ccells.
Proof.
  intros Pm HV HH. unfold fp_divide_unsafe. rewrite !gav. apply h_lift_bind; [eauto|]. intros av [= <-]. apply h_lift_bind; [eauto|]. intros bv [= <-]. cbv zeta.
  apply (h_div_gen 1 (of_Z m (c_val a)) (fun qb => fp_sub_no_carry qb a)); auto.
  - f_equal. lia.
  - intros L' Pre' qb Ca' Cq Lq. unfold fp_sub_no_carry. eapply h_post; [apply (h_sub_crt lb)| | |]; auto.
    + lia.
    + cbv beta. intros c (D1 & D2 & D3). rewrite D1, D2, D3. repeat split; lia.
    + cbv beta. intros e c _ _ HB u v Hu Hv. rewrite Z.mul_1_l. now apply HB.
    + intros c _ z Hz. apply in_or_app. now left.
Qed.
Lemma h_fp_neg_divide_unsafe : (Hon -> prime mz) -> (Hon -> c_val a mod mz = 0 \/ c_val b mod mz <> 0) ->
  (Hon -> Pre hval -> crep n hval a (c_val a) /\ crep n hval b (c_val b) /\ div_fits (c_val a) (c_val b)) ->
  hcalc L Pre Hon (fp_neg_divide_unsafe lb m ch a b) (div_post (- of_Z m (c_val a))%F) (div_rel (-1)) ccells.
Proof.
  intros Pm HV HH. unfold fp_neg_divide_unsafe. rewrite !gav. apply h_lift_bind; [eauto|]. intros av [= <-]. apply h_lift_bind; [eauto|]. intros bv [= <-]. cbv zeta.
  apply (h_div_gen (-1) (- of_Z m (c_val a))%F (fun qb => fp_add_no_carry qb a)); auto.
  - rewrite <- of_Z_opp. f_equal; lia.
  - intros L' Pre' qb Ca' Cq Lq. unfold fp_add_no_carry. eapply h_post; [apply (h_add_crt lb)| | |]; auto.
    + lia.
    + cbv beta. intros c (D1 & D2 & D3). rewrite D1, D2, D3. repeat split; lia.
    + cbv beta. intros e c _ _ HB u v Hu Hv. replace (u - -1 * v) with (u + v) by lia. now apply HB.
    + intros c _ z Hz. apply in_or_app. now left.
Qed.
End Div.

Section Div2.
Variables (L : list AV) (Pre : env -> Prop) (Hon : Prop) (a b : crt).
Hypothesis Ca : cpre L a.
Hypothesis Cb : cpre L b.
Hypothesis La : length (c_limbs a) = k.
Hypothesis Lb : length (c_limbs b) = k.
Hypothesis Hf : fit_zero (Nat.max (log2_ceil (Z.of_nat k) + n + n) (c_bits a) + 1).
Hypothesis HbC : c_bits b = n.
Hypothesis HZ : Hon -> zcap (p:=p) n k.
Hypothesis Pm : Hon -> prime mz.
Hypothesis HH : Hon -> Pre hval -> crep n hval a (c_val a) /\ proper n hval b (c_val b) /\ 0 < c_val b < mz /\ div_fits (c_val a) (c_val b).

(** the denominator is checked to be reduced and non-zero *)
Definition nz_rel (e : env) : Prop := forall y, proper n e b y -> 0 < y < mz.
Lemma h_nonzero {B} (mm : M p B) P R cs :
  hcalc L (fun e => Pre e /\ nz_rel e) Hon mm P R cs ->
  hcalc L Pre Hon (bind (fp_is_zero lb ch b) (fun z => bind (assert_is_const z F0) (fun _ => mm))) P (fun e c => nz_rel e /\ R e c) cs.
Proof.
  intros HM. eapply h_bind; [apply (h_fp_is_zero lb m Hp Hlb Hlb2 Hm ch n k HN HK)|]; auto.
  { intros Hh Hpre. destruct (HH Hh Hpre) as (H1 & H2 & H3 & _). exists (c_val b). split; auto. lia. }
  cbv beta. intros z _. eapply h_bind; [apply h_assert_is_const|].
  { now left. }
  { intros Hh [Hpre HR]. destruct (HH Hh Hpre) as (H1 & H2 & H3 & _). destruct (HR _ H2) as [_ ->]. destruct (Z.eqb_spec (c_val b) 0); [lia|reflexivity]. }
  cbv beta. intros [] _. cbn [app].
  assert (HN0 : forall e : env, (Pre e /\ (forall x, proper n e b x -> x < mz /\ e z = fbool (x =? 0))) /\ e z = F0 -> nz_rel e).
  { intros e [[Hpre HR] E] y Hy. destruct (HR y Hy) as [H1 H2]. rewrite E in H2. change (@F0 p) with (fbool (p:=p) false) in H2. apply (fbool_inj Hp) in H2.
    symmetry in H2. apply Z.eqb_neq in H2. pose proof (proper_bound _ _ _ _ Hy). lia. }
  eapply h_weaken; [exact HM| | | | | |]; auto.
  - intros y Hy. right. exact Hy.
  - intros e He. split; [apply He|apply (HN0 e He)].
  - intros c _ y Hy. apply in_or_app. now left.
Qed.
Lemma nz_mod : Hon -> forall e : env, Hon -> Pre hval -> c_val b mod mz <> 0.
Proof. intros _ e Hh Hpre. destruct (HH Hh Hpre) as (_ & _ & H & _). rewrite Z.mod_small; lia. Qed.
Lemma h_fp_divide : (Hon -> 0 < c_val b < mz) ->
  hcalc L Pre Hon (fp_divide lb m ch a b) (div_post b (of_Z m (c_val a))) (fun e q => nz_rel e /\ div_rel a b 1 e q) ccells.
Proof.
  intros Hv. unfold fp_divide. apply h_nonzero. apply h_fp_divide_unsafe; auto.
  - now rewrite HbC.
  - intros Hh. right. rewrite Z.mod_small; specialize (Hv Hh); lia.
  - intros Hh [Hpre _]. destruct (HH Hh Hpre) as (H1 & H2 & H3 & H4). repeat split; auto. now apply proper_crep.
Qed.
Lemma h_fp_neg_divide : (Hon -> 0 < c_val b < mz) ->
  hcalc L Pre Hon (fp_neg_divide lb m ch a b) (div_post b (- of_Z m (c_val a))%F) (fun e q => nz_rel e /\ div_rel a b (-1) e q) ccells.
Proof.
  intros Hv. unfold fp_neg_divide. apply h_nonzero. apply h_fp_neg_divide_unsafe; auto.
  - now rewrite HbC.
  - intros Hh. right. rewrite Z.mod_small; specialize (Hv Hh); lia.
  - intros Hh [Hpre _]. destruct (HH Hh Hpre) as (H1 & H2 & H3 & H4). repeat split; auto. now apply proper_crep.
Qed.
End Div2.
End FpProofs3.
