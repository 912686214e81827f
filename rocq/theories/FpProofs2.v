(** FpChip: range checks, loading, predicates, negation, selection. *)
From Coq Require Import ZArith Znumtheory Lia List Bool Ring.
From Verif Require Import Field Spec Context ContextProofs Utils Logic Gate GateProofs ChainProofs IPProofs BitProofs PowProofs IPComp Derived
  Range RangeProofs RangeProofs2 RangeProofs3 RegionGets Calc CalcH RegionPrev RegionLast BigPrims BigNum BigInt BigSpec BigOps BigSel BigCmp BigSub BigCarry BigMod BigCrtNum BigCrt FpChip FpProofs.
Import ListNotations.
Local Open Scope Z_scope.

Section FpProofs2.
Context {p : positive}.
Notation Fp := (F p).
Notation AV := (AV p).
Notation crt := (crt p).
Variables (lb : nat) (m : positive).
Notation env := (env (p:=p)).
Notation hcalc := (hcalc lb).
Hypothesis Hp : prime (Z.pos p).
Hypothesis Hlb : (1 <= lb < 64)%nat.
Hypothesis Hlb2 : (2 * lb <= CAPACITY p)%nat.
Hypothesis Hm : 1 < Z.pos m.
Add Ring Fring : (F_ring p) (morphism (F_morph p), constants [Fcst]).
Variables (ch : fpchip p) (n k : nat).
Hypothesis HN : fpchip_new m n k = Some ch.
Hypothesis HK : fp_params (p:=p) lb m n k.
Notation mz := (Z.pos m).

Lemma not_fbool b : (1 - fbool b : Fp)%F = fbool (negb b).
Proof. destruct b; cbn; ring. Qed.
Lemma Fis0_fbool b : Fis0 (fbool b : Fp) = negb b.
Proof. destruct b; cbn [fbool negb]; [apply Fis0_false, (F1_neq_0 _ Hp)|now apply Fis0_true]. Qed.
Lemma fbool_inj (a b : bool) : (fbool a : Fp) = fbool b -> a = b.
Proof. intros H. apply (f_equal (fun x => negb (Fis0 x))) in H. rewrite !Fis0_fbool, !negb_involutive in H. exact H. Qed.
Lemma NUM_BITS_bits : NUM_BITS m = bits mz.
Proof. unfold NUM_BITS, CAPACITY, bits. destruct (Z.leb_spec mz 0); [lia|reflexivity]. Qed.

Lemma proper_of_digits (e : env) (c : crt) v : c_bits c = n -> (n <= CAPACITY p)%nat -> 0 <= v < 2 ^ Z.of_nat (n * k) ->
  map e (c_limbs c) = map (of_Z p) (digits n k v) -> e (c_nat c) = of_Z p v -> proper n e c v.
Proof.
  intros Hb Hn Hv EL EN. unfold proper.
  assert (EV : map (fun a => val (e a)) (c_limbs c) = digits n k v).
  { rewrite <- (map_map e val), EL, map_map. rewrite <- (map_id (digits n k v)) at 2. apply map_ext_in. intros d Hd.
    pose proof (digits_bound n k v) as HB. rewrite Forall_forall in HB. specialize (HB d Hd). apply val_of_Z_small.
    pose proof (pow2_le_p lb Hlb Hlb2 n ltac:(lia)). lia. }
  split; auto. split; [|split; auto].
  - apply Forall_map with (f := fun a => val (e a)) (P := fun d => d < 2 ^ Z.of_nat n). rewrite EV.
    eapply Forall_impl; [|apply digits_bound]. cbv beta. intros; lia.
  - rewrite EV, undigits_digits, Z.mod_small; auto.
Qed.
Lemma proper_digits_eq (e : env) (c : crt) v z : (n <= CAPACITY p)%nat -> 0 <= v < 2 ^ Z.of_nat (n * k) ->
  map e (c_limbs c) = map (of_Z p) (digits n k v) -> proper n e c z -> z = v.
Proof.
  intros Hn Hv EL (_ & _ & -> & _).
  assert (EV : map (fun a => val (e a)) (c_limbs c) = digits n k v).
  { rewrite <- (map_map e val), EL, map_map. rewrite <- (map_id (digits n k v)) at 2. apply map_ext_in. intros d Hd.
    pose proof (digits_bound n k v) as HB. rewrite Forall_forall in HB. specialize (HB d Hd). apply val_of_Z_small.
    pose proof (pow2_le_p lb Hlb Hlb2 n ltac:(lia)). lia. }
  rewrite EV, undigits_digits, Z.mod_small; auto.
Qed.

Lemma mz_fits : 0 <= mz < 2 ^ Z.of_nat (n * k).
Proof. destruct HK as ((_ & _ & H3 & _) & _). lia. Qed.

(** ** range_check *)
Lemma ev_nonneg (e : env) l : 0 <= ev e n l.
Proof. unfold ev. induction l as [|a l IH]; cbn [map undigits]; [lia|]. pose proof (val_bounds p (e a)). pose proof (pow2_pos n). nia. Qed.
Lemma h_fp_range_check_loop L (Pre : env -> Prop) (Hon : Prop) limbs : forall rem, incl limbs L ->
  (Hon -> Pre hval -> lt_n hval n limbs /\ ev hval n limbs < 2 ^ Z.of_nat rem) ->
  hcalc L Pre Hon (fp_range_check_loop lb ch limbs rem) (fun _ => True) (fun e _ => lt_n e n limbs /\ ev e n limbs < 2 ^ Z.of_nat rem) (fun _ => []).
Proof.
  destruct (ch_ok lb m Hp Hlb Hlb2 Hm ch n k HN) as (C1 & _). destruct (ch_sizes lb m Hlb Hlb2 n k HK) as (S1 & S2 & S3 & S4 & S5).
  revert Pre. induction limbs as [|c limbs IH]; intros Pre rem HI HH; cbn [fp_range_check_loop].
  - apply h_ret; auto. intros e _. split; [constructor|]. unfold ev. cbn [map undigits]. apply pow2_pos.
  - rewrite C1.
    assert (E : forall e : env, ev e n (c :: limbs) = val (e c) + 2 ^ Z.of_nat n * ev e n limbs) by reflexivity.
    assert (HS : (2 ^ Z.of_nat rem = 2 ^ Z.of_nat (Nat.min n rem) * 2 ^ Z.of_nat (rem - Nat.min n rem))).
    { rewrite <- pow2_add. do 2 f_equal. lia. }
    pose proof (pow2_pos n) as Hn0.
    eapply h_bind; [apply (h_range_check lb Hp Hlb Hlb2)|].
    + apply HI. now left.
    + intros Hh Hpre. destruct (HH Hh Hpre) as [H1 H2]. split; [lia|]. rewrite E in H2. apply Forall_cons_iff in H1 as [H1a H1b]. pose proof (ev_nonneg hval limbs).
      destruct (Nat.min_spec n rem) as [[_ ->]|[_ ->]]; [auto|nia].
    + cbv beta. intros [] _. cbn [app]. eapply h_post; [apply IH| | |]; auto.
      * intros z Hz. apply HI. now right.
      * intros Hh [Hpre Hc]. destruct (HH Hh Hpre) as [H1 H2]. rewrite E in H2. apply Forall_cons_iff in H1 as [H1a H1b]. split; auto.
        pose proof (val_bounds p (hval c)). pose proof (ev_nonneg hval limbs).
        destruct (Nat.min_spec n rem) as [[Hmin EM]|[Hmin EM]]; rewrite EM in *.
        -- nia.
        -- rewrite Nat.sub_diag. change (2 ^ Z.of_nat 0) with 1. pose proof (pow2_le rem n Hmin). nia.
      * intros e [] _ [Hpre Hc] [H1 H2]. rewrite E. pose proof (ev_nonneg e limbs). pose proof (val_bounds p (e c)).
        destruct (Nat.min_spec n rem) as [[Hmin EM]|[Hmin EM]]; rewrite EM in *.
        -- split; [constructor; auto|]. nia.
        -- rewrite Nat.sub_diag in *. change (2 ^ Z.of_nat 0) with 1 in *. pose proof (pow2_le rem n Hmin). split; [constructor; auto; lia|]. nia.
      * intros [] _ z [].
Qed.
Lemma h_fp_range_check L (Pre : env -> Prop) (Hon : Prop) (a : crt) bits : cpre L a ->
  (Hon -> Pre hval -> exists x, proper n hval a x /\ x < 2 ^ Z.of_nat bits) ->
  hcalc L Pre Hon (fp_range_check lb ch a bits) (fun _ => True)
    (fun e _ => lt_n e n (c_limbs a) /\ ev e n (c_limbs a) < 2 ^ Z.of_nat bits) (fun _ => []).
Proof.
  intros Ca HH. apply h_fp_range_check_loop; [now apply cpre_limbs|]. intros Hh Hpre. destruct (HH Hh Hpre) as (x & Hx & Hb).
  split; [eapply proper_lt_n; eauto|]. now rewrite <- (proper_ev _ _ _ _ Hx).
Qed.

(** ** load_private, load_constant *)
Lemma h_into_crt L (Pre : env -> Prop) (Hon : Prop) limbs v : incl limbs L -> length limbs = k ->
  hcalc L Pre Hon (into_crt limbs v (f_bases ch) n) (fun c => c_limbs c = limbs /\ c_bits c = n /\ c_val c = v)
    (fun e c => e (c_nat c) = of_Z p (ev e n limbs)) ccells.
Proof.
  intros HI HL. destruct (ch_ok lb m Hp Hlb Hlb2 Hm ch n k HN) as (C1 & C2 & C3 & C4 & C5 & _). unfold into_crt. rewrite C5.
  eapply h_bind; [apply (h_evaluate_native lb); [auto|rewrite fbases_length; auto]|]. cbv beta. intros nat _. apply h_ret; unfold c_limbs, c_bits; cbn; auto.
  - intros z [<-|Hz]; [now left|]. right. now apply HI.
  - intros e [_ E]. rewrite E. replace k with (length (map e limbs)) by now rewrite map_length. rewrite dot_bases_val. unfold ev. now rewrite map_map.
Qed.
Lemma h_fp_load_private L (Pre : env -> Prop) (Hon : Prop) (a : F m) :
  hcalc L Pre Hon (fp_load_private lb m ch a)
    (fun c => length (c_limbs c) = k /\ c_bits c = n /\ c_val c = val a /\ map hval (c_limbs c) = map (of_Z p) (digits n k (val a)))
    (fun e c => exists z, proper n e c z /\ z < 2 ^ Z.of_nat (bits mz)) ccells.
Proof.
  destruct (ch_ok lb m Hp Hlb Hlb2 Hm ch n k HN) as (C1 & C2 & C3 & C4 & C5 & _). destruct (ch_sizes lb m Hlb Hlb2 n k HK) as (S1 & S2 & S3 & S4 & S5).
  pose proof mz_fits as MF. pose proof (val_bounds m a) as Ba.
  unfold fp_load_private, fe_to_biguint. rewrite C1, C2. apply h_lift_bind.
  { intros. unfold decompose_biguint. rewrite decompose_biguint_limbs_correct by lia. cbn. eauto. }
  intros ls Hls. unfold decompose_biguint in Hls. rewrite decompose_biguint_limbs_correct in Hls by lia. injection Hls as <-.
  eapply h_bind; [apply (h_assign_witnesses lb)|]. cbv beta. intros limbs [Ll Hl]. rewrite map_length, digits_length in Ll.
  eapply h_bind; [apply h_into_crt; [intros z Hz; apply in_or_app; now left|auto]|]. cbv beta. intros c (L1 & L2 & L3).
  eapply h_bind; [apply h_fp_range_check|].
  { intros z Hz. apply in_or_app; now left. }
  { intros Hh [[Hpre _] E]. exists (val a). rewrite NUM_BITS_bits. split; [|pose proof (bits_up mz ltac:(lia)); lia].
    apply proper_of_digits; auto; try lia; try (rewrite L1; auto; fail). rewrite E. f_equal. unfold ev. rewrite <- (map_map hval val), Hl, map_map.
    replace (map (fun x => val (of_Z p x)) (digits n k (val a))) with (digits n k (val a)); [rewrite undigits_digits, Z.mod_small; lia|].
    symmetry. rewrite <- (map_id (digits n k (val a))) at 2. apply map_ext_in. intros d Hd.
    pose proof (digits_bound n k (val a)) as HB. rewrite Forall_forall in HB. specialize (HB d Hd). apply val_of_Z_small.
    pose proof (pow2_le_p lb Hlb Hlb2 n ltac:(lia)). lia. }
  cbv beta. intros [] _. cbn [app]. apply h_ret.
  - rewrite L1, L2, L3. auto.
  - intros z Hz. apply in_or_app. now left.
  - intros e [[_ E] [H1 H2]]. rewrite NUM_BITS_bits in H2. exists (ev e n (c_limbs c)). split; auto. unfold proper. rewrite L2. split; auto. split; auto. split; [reflexivity|]. now rewrite L1.
Qed.
Lemma h_fp_load_constant L (Pre : env -> Prop) (Hon : Prop) (a : F m) :
  hcalc L Pre Hon (fp_load_constant m ch a) (fun c => length (c_limbs c) = k /\ c_bits c = n /\ c_val c = val a) (fun e c => proper n e c (val a)) ccells.
Proof.
  pose proof mz_fits. pose proof (val_bounds m a).
  eapply h_post; [apply (h_load_constant_uint lb m Hp Hlb Hlb2 Hm ch n k HN HK)| | |]; auto; try (unfold fe_to_biguint; lia).
  - intros e c _ _ [H1 _]. exact H1.
  - intros c _ z Hz. apply in_or_app. now left.
Qed.
Lemma h_fp_load_private_reduced L (Pre : env -> Prop) (Hon : Prop) (a : F m) :
  hcalc L Pre Hon (fp_load_private_reduced lb m ch a)
    (fun c => length (c_limbs c) = k /\ c_bits c = n /\ c_val c = val a /\ map hval (c_limbs c) = map (of_Z p) (digits n k (val a)))
    (fun e c => exists z, proper n e c z /\ z < mz) ccells.
Proof.
  destruct (ch_sizes lb m Hlb Hlb2 n k HK) as (S1 & S2 & S3 & S4 & S5). pose proof mz_fits. pose proof (val_bounds m a).
  unfold fp_load_private_reduced, fp_enforce_less_than. eapply h_bind; [apply h_fp_load_private|]. cbv beta. intros c (L1 & L2 & L3 & L4).
  eapply h_bind; [apply (h_enforce_less_than_p lb m Hp Hlb Hlb2 Hm ch n k HN HK)|]; auto.
  { intros z Hz. apply in_or_app. now left. }
  { intros Hh [Hpre (z & Hz & _)]. exists z. split; auto. rewrite (proper_digits_eq hval c (val a) z); auto; lia. }
  cbv beta. intros [] _. cbn [app]. apply h_ret; auto.
  - intros z Hz. apply in_or_app. now left.
  - intros e [[_ (z & Hz & _)] H1]. eauto.
Qed.

(** ** predicates *)
Lemma c_trunc_limbs (a : crt) : o_limbs (c_trunc a) = c_limbs a. Proof. reflexivity. Qed.
Definition zcap : Prop := (n + Nat.log2 k < CAPACITY p)%nat.
Lemma h_fp_is_soft_zero L (Pre : env -> Prop) (Hon : Prop) (a : crt) : cpre L a -> (Hon -> length (c_limbs a) = k /\ c_bits a = n /\ zcap) ->
  hcalc L Pre Hon (fp_is_soft_zero a) (fun _ => True) (fun e o => forall x, proper n e a x -> e o = fbool (x =? 0)) one.
Proof.
  intros Ca La. destruct (ch_sizes lb m Hlb Hlb2 n k HK) as (S1 & _).
  unfold fp_is_soft_zero. eapply h_post; [apply (h_big_is_zero_positive lb Hp Hlb Hlb2)| | |]; auto.
  - now apply cpre_limbs.
  - intros Hh. destruct (La Hh) as (L1 & L2 & L3). rewrite c_trunc_limbs. fold (c_bits a). rewrite L1, L2. split; [intros E; rewrite E in L1; cbn in L1; lia|exact L3].
  - cbv beta. intros e o _ _ HR x Hx. rewrite <- (proper_all0 lb Hlb Hlb2 n e a x Hx). apply HR. eapply (proper_le lb Hlb Hlb2); eauto.
  - intros o _ z Hz. apply in_or_app. now left.
Qed.
Lemma h_is_less_than_p L (Pre : env -> Prop) (Hon : Prop) (a : crt) : cpre L a -> (Hon -> length (c_limbs a) = k) -> (Hon -> Pre hval -> exists x, proper n hval a x) ->
  hcalc L Pre Hon (is_less_than_p lb ch a) (fun _ => True) (fun e o => forall x, proper n e a x -> e o = fbool (x <? mz)) one.
Proof.
  intros Ca La HH. destruct (ch_sizes lb m Hlb Hlb2 n k HK) as (S1 & S2 & S3 & S4 & S5). pose proof mz_fits.
  destruct (ch_ok lb m Hp Hlb Hlb2 Hm ch n k HN) as (C1 & C2 & C3 & C4 & C5 & C6 & C7 & _). pose proof HK as (_ & _ & W & _).
  unfold is_less_than_p. rewrite C7, C1. eapply h_bind; [apply (h_load_constant_uint lb m Hp Hlb Hlb2 Hm ch n k HN HK); lia|].
  cbv beta. intros pc (P1 & P2 & P3). apply h_lift_bind; [rewrite (base1_ok lb m Hp Hlb Hlb2 Hm ch n k HN HK); eauto|].
  intros b1 Eb. rewrite (base1_ok lb m Hp Hlb Hlb2 Hm ch n k HN HK) in Eb. injection Eb as <-.
  eapply h_bind; [apply (h_big_sub_crt lb Hp Hlb Hlb2)|]; try lia.
  { now apply cpre_app. } { intros z Hz. apply in_or_app. now left. }
  { intros Hh. rewrite (La Hh), P1. split; auto. intros E. specialize (La Hh). rewrite E in La. cbn in La. lia. }
  { intros Hh [Hpre [Hpc _]]. destruct (HH Hh Hpre) as [x Hx]. split; auto. split; [eapply proper_lt_n; eauto|eapply proper_lt_n; eauto]. }
  cbv beta. intros r _. eapply h_bind; [apply (h_is_zero lb Hp); cbn; auto|]. cbv beta. intros z _.
  eapply h_post; [apply calc_h, (calc_not lb _ _ (Existing z)); cbn; auto| | |]; auto.
  - cbv beta. intros e o _ [[[Hpre [Hpc _]] HR] Hz] Ho x Hx. destruct (HR x mz Hx Hpc) as [Hb _]. cbn [qe] in Ho. rewrite Ho, Hz, Hb, Fis0_fbool, not_fbool. now rewrite negb_involutive.
  - intros o _ y Hy. apply in_or_app. now left.
Qed.
Lemma h_fp_is_even L (Pre : env -> Prop) (Hon : Prop) (a : crt) : cpre L a -> length (c_limbs a) = k ->
  (Hon -> Pre hval -> exists x, proper n hval a x /\ x < mz) ->
  hcalc L Pre Hon (fp_is_even lb ch a) (fun _ => True) (fun e o => forall x, proper n e a x -> x < mz /\ e o = fbool (Z.even x)) one.
Proof.
  intros Ca La HH. destruct (ch_sizes lb m Hlb Hlb2 n k HK) as (S1 & S2 & S3 & S4 & S5).
  destruct (ch_ok lb m Hp Hlb Hlb2 Hm ch n k HN) as (C1 & _). unfold fp_is_even. rewrite C1.
  eapply h_bind; [apply (h_enforce_less_than_p lb m Hp Hlb Hlb2 Hm ch n k HN HK); auto|]. cbv beta. intros [] _. cbn [app].
  destruct (c_limbs a) as [|a0 rest] eqn:Ea; [cbn in La; lia|].
  eapply h_post; [apply (h_big_is_even lb Hp Hlb Hlb2) with (a0 := a0) (rest := rest)| | |]; auto.
  - rewrite c_trunc_limbs. now apply cpre_limbs.
  - lia.
  - intros Hh [Hpre _]. destruct (HH Hh Hpre) as (x & Hx & _). apply proper_lt_n in Hx. rewrite Ea in Hx. now inversion Hx.
  - cbv beta. intros e o _ [Hpre H1] [H2 H3] x Hx. split; auto. rewrite H3. f_equal. eapply (proper_even lb Hlb Hlb2 n e a x a0 rest); eauto. lia.
  - intros o _ y Hy. apply in_or_app. now left.
Qed.
Lemma h_fp_is_zero L (Pre : env -> Prop) (Hon : Prop) (a : crt) : cpre L a -> length (c_limbs a) = k -> (Hon -> zcap) ->
  (Hon -> Pre hval -> exists x, proper n hval a x /\ x < mz) -> (Hon -> c_bits a = n) ->
  hcalc L Pre Hon (fp_is_zero lb ch a) (fun _ => True) (fun e o => forall x, proper n e a x -> x < mz /\ e o = fbool (x =? 0)) one.
Proof.
  intros Ca La Hz HH Hb. unfold fp_is_zero.
  eapply h_bind; [apply (h_enforce_less_than_p lb m Hp Hlb Hlb2 Hm ch n k HN HK); auto|]. cbv beta. intros [] _. cbn [app].
  eapply h_post; [apply h_fp_is_soft_zero| | |]; auto.
  - cbv beta. intros e o _ [Hpre H1] H2 x Hx. split; auto.
  - intros o _ y Hy. apply in_or_app. now left.
Qed.
Lemma h_fp_is_soft_nonzero L (Pre : env -> Prop) (Hon : Prop) (a : crt) : cpre L a -> (Hon -> length (c_limbs a) = k /\ c_bits a = n /\ zcap) ->
  (Hon -> Pre hval -> exists x, proper n hval a x) ->
  hcalc L Pre Hon (fp_is_soft_nonzero lb ch a) (fun _ => True) (fun e o => forall x, proper n e a x -> e o = fbool (negb (x =? 0) && (x <? mz))) one.
Proof.
  intros Ca La HH. destruct (ch_sizes lb m Hlb Hlb2 n k HK) as (S1 & S2 & S3 & S4 & S5). pose proof mz_fits.
  destruct (ch_ok lb m Hp Hlb Hlb2 Hm ch n k HN) as (C1 & C2 & C3 & C4 & C5 & C6 & C7 & _). pose proof HK as (_ & _ & W & _).
  unfold fp_is_soft_nonzero. rewrite C7, C1. eapply h_bind; [apply h_fp_is_soft_zero; auto|]. cbv beta. intros z _.
  eapply h_bind; [apply calc_h, (calc_not lb _ _ (Existing z)); cbn; auto|]. cbv beta. intros nz _.
  eapply h_bind; [apply (h_load_constant_uint lb m Hp Hlb Hlb2 Hm ch n k HN HK); lia|].
  cbv beta. intros pc (P1 & P2 & P3). apply h_lift_bind; [rewrite (base1_ok lb m Hp Hlb Hlb2 Hm ch n k HN HK); eauto|].
  intros b1 Eb. rewrite (base1_ok lb m Hp Hlb Hlb2 Hm ch n k HN HK) in Eb. injection Eb as <-.
  eapply h_bind; [apply (h_big_sub_crt lb Hp Hlb Hlb2)|]; try lia.
  { now apply cpre_app, cpre_app, cpre_app. } { intros y Hy. apply in_or_app. now left. }
  { intros Hh. destruct (La Hh) as (L1 & _). rewrite L1, P1. split; auto. intros E. rewrite E in L1. cbn in L1. lia. }
  { intros Hh [[[Hpre _] _] [Hpc _]]. destruct (HH Hh Hpre) as [x Hx]. split; auto. split; [eapply proper_lt_n; eauto|eapply proper_lt_n; eauto]. }
  cbv beta. intros r _. eapply h_bind; [apply (h_is_zero lb Hp); cbn; auto|]. cbv beta. intros uz _.
  eapply h_bind; [apply calc_h, (calc_not lb _ _ (Existing uz)); cbn; auto|]. cbv beta. intros nu _.
  eapply h_post; [apply calc_h, (calc_mul lb _ _ (Existing nz) (Existing nu)); cbn; auto| | |]; auto.
  - right. right. right. right. apply in_or_app. right. right. apply in_or_app. right. now left.
  - cbv beta. intros e o _ [[[[[[Hpre HZ] HNZ] [Hpc _]] HR] HUZ] HNU] Ho x Hx. destruct (HR x mz Hx Hpc) as [Hb _]. cbn [qe] in *.
    rewrite Ho, HNZ, HNU, HUZ, Hb, Fis0_fbool, (HZ x Hx), !not_fbool, fbool_mul, negb_involutive. reflexivity.
  - intros o _ y Hy. apply in_or_app. now left.
Qed.
Lemma h_fp_is_equal_unenforced L (Pre : env -> Prop) (Hon : Prop) (a b : crt) : cpre L a -> cpre L b -> length (c_limbs a) = k -> length (c_limbs b) = k ->
  hcalc L Pre Hon (fp_is_equal_unenforced a b) (fun _ => True) (fun e o => forall x y, proper n e a x -> proper n e b y -> e o = fbool (x =? y)) one.
Proof.
  intros Ca Cb La Lb. destruct (ch_sizes lb m Hlb Hlb2 n k HK) as (S1 & _).
  unfold fp_is_equal_unenforced. eapply h_post; [apply (h_big_is_equal lb Hp Hlb Hlb2)| | |]; auto.
  - now apply cpre_limbs.
  - now apply cpre_limbs.
  - intros _. split; [lia|]. intros E. rewrite E in La. cbn in La. lia.
  - cbv beta. intros e o _ _ E x y Hx Hy. rewrite E. f_equal. eapply (proper_alleq lb Hlb Hlb2); eauto. lia.
  - intros o _ y Hy. apply in_or_app. now left.
Qed.
Lemma h_fp_is_equal L (Pre : env -> Prop) (Hon : Prop) (a b : crt) : cpre L a -> cpre L b -> length (c_limbs a) = k -> length (c_limbs b) = k ->
  (Hon -> Pre hval -> exists x y, proper n hval a x /\ x < mz /\ proper n hval b y /\ y < mz) ->
  hcalc L Pre Hon (fp_is_equal lb ch a b) (fun _ => True) (fun e o => forall x y, proper n e a x -> proper n e b y -> x < mz /\ y < mz /\ e o = fbool (x =? y)) one.
Proof.
  intros Ca Cb La Lb HH. unfold fp_is_equal.
  eapply h_bind; [apply (h_enforce_less_than_p lb m Hp Hlb Hlb2 Hm ch n k HN HK)|]; auto.
  { intros Hh Hpre. destruct (HH Hh Hpre) as (x & y & H1 & H2 & H3 & H4). eauto. }
  cbv beta. intros [] _. cbn [app].
  eapply h_bind; [apply (h_enforce_less_than_p lb m Hp Hlb Hlb2 Hm ch n k HN HK)|]; auto.
  { intros Hh [Hpre _]. destruct (HH Hh Hpre) as (x & y & H1 & H2 & H3 & H4). eauto. }
  cbv beta. intros [] _. cbn [app].
  eapply h_post; [apply h_fp_is_equal_unenforced| | |]; auto.
  - cbv beta. intros e o _ [[Hpre H1] H2] H3 x y Hx Hy. auto.
  - intros o _ y Hy. apply in_or_app. now left.
Qed.
Lemma h_fp_assert_equal L (Pre : env -> Prop) (Hon : Prop) (a b : crt) : cpre L a -> cpre L b -> length (c_limbs a) = k -> length (c_limbs b) = k ->
  (Hon -> Pre hval -> exists x, proper n hval a x /\ x < mz /\ proper n hval b x) ->
  hcalc L Pre Hon (fp_assert_equal lb ch a b) (fun _ => True) (fun e _ => forall x y, proper n e a x -> proper n e b y -> x = y /\ x < mz) (fun _ => []).
Proof.
  intros Ca Cb La Lb HH. unfold fp_assert_equal.
  eapply h_bind; [apply h_iterM with (R := fun e xy => e (fst xy) = e (snd xy))|].
  { intros [u v] Huv. cbn [fst snd]. pose proof (cpre_limbs _ _ Ca _ (in_combine_l _ _ _ _ Huv)). pose proof (cpre_limbs _ _ Cb _ (in_combine_r _ _ _ _ Huv)).
    apply h_constrain_equal; auto. intros Hh Hpre. destruct (HH Hh Hpre) as (x & H1 & H2 & H3).
    pose proof (proper_alleq lb Hlb Hlb2 n hval a b x x H1 H3 ltac:(lia)) as HA. rewrite Z.eqb_refl in HA. unfold alleq in HA. rewrite forallb_forall in HA.
    specialize (HA _ Huv). now apply Feqb_eq in HA. }
  cbv beta. intros [] _. cbn [app].
  eapply h_bind; [apply (h_enforce_less_than_p lb m Hp Hlb Hlb2 Hm ch n k HN HK)|]; auto.
  { intros Hh [Hpre _]. destruct (HH Hh Hpre) as (x & H1 & H2 & H3). eauto. }
  cbv beta. intros [] _. cbn [app].
  eapply h_post; [apply (h_enforce_less_than_p lb m Hp Hlb Hlb2 Hm ch n k HN HK)| | |]; auto.
  - intros Hh [[Hpre _] _]. destruct (HH Hh Hpre) as (x & H1 & H2 & H3). eauto.
  - cbv beta. intros e [] _ [[Hpre HE] H1] H2 x y Hx Hy. split; auto.
    apply Z.eqb_eq. rewrite <- (proper_alleq lb Hlb Hlb2 n e a b x y Hx Hy ltac:(lia)). unfold alleq. apply forallb_forall. intros uv Huv.
    rewrite Forall_forall in HE. apply Feqb_eq. now apply HE.
  - intros [] _ z [].
Qed.

(** ** negate *)
Definition negmod (x : Z) : Z := if x =? 0 then 0 else mz - x.
Lemma h_fp_negate L (Pre : env -> Prop) (Hon : Prop) (a : crt) : cpre L a -> length (c_limbs a) = k -> (Hon -> zcap /\ c_bits a = n) ->
  (Hon -> Pre hval -> exists x, proper n hval a x /\ x <= mz) ->
  hcalc L Pre Hon (fp_negate lb ch a) (fun c => length (c_limbs c) = k /\ c_bits c = Nat.max (c_bits a) n)
    (fun e c => forall x, proper n e a x -> x <= mz /\ proper n e c (negmod x) /\ (e = hval -> c_val a = x -> c_val c = negmod x)) ccells.
Proof.
  intros Ca La Hz HH. destruct (ch_sizes lb m Hlb Hlb2 n k HK) as (S1 & S2 & S3 & S4 & S5). pose proof mz_fits.
  destruct (ch_ok lb m Hp Hlb Hlb2 Hm ch n k HN) as (C1 & C2 & C3 & C4 & C5 & C6 & C7 & _). pose proof HK as (_ & _ & W & _).
  unfold fp_negate. rewrite C7, C1. eapply h_bind; [apply (h_load_constant_uint lb m Hp Hlb Hlb2 Hm ch n k HN HK); lia|].
  cbv beta. intros pc (P1 & P2 & P3). apply h_lift_bind; [rewrite (base1_ok lb m Hp Hlb Hlb2 Hm ch n k HN HK); eauto|].
  intros b1 Eb. rewrite (base1_ok lb m Hp Hlb Hlb2 Hm ch n k HN HK) in Eb. injection Eb as <-.
  eapply h_bind; [apply (h_big_sub_crt lb Hp Hlb Hlb2)|]; try lia.
  { intros z Hy. apply in_or_app. now left. } { now apply cpre_app. }
  { intros Hh. rewrite La, P1. split; auto. intros E. rewrite E in P1. cbn in P1. lia. }
  { intros Hh [Hpre [Hpc _]]. destruct (HH Hh Hpre) as (x & Hx & _). split; auto. split; [eapply proper_lt_n; eauto|eapply proper_lt_n; eauto]. }
  cbv beta. intros [r bo] (Q1 & Q2 & Q3 & _). cbn [fst snd] in *.
  eapply h_bind; [apply h_assert_is_const; [cbn; auto|]|].
  { intros Hh [[Hpre [Hpc _]] HR]. destruct (HH Hh Hpre) as (x & Hx & Hle). destruct (HR mz x Hpc Hx) as [Hb _]. rewrite Hb. destruct (Z.ltb_spec mz x); [lia|reflexivity]. }
  cbv beta. intros [] _. cbn [app].
  eapply h_bind; [apply h_fp_is_soft_zero|].
  { intros z Hy. right. apply in_or_app. right. apply in_or_app. right. now apply Ca. } { intros Hh. destruct (Hz Hh). auto. }
  cbv beta. intros z _.
  eapply h_post; [apply (h_select_crt lb)| | |].
  - intros y Hy. right. right. apply in_or_app. right. apply in_or_app. right. now apply Ca.
  - intros y Hy. right. right. apply in_or_app. now left.
  - now left.
  - lia.
  - cbv beta. intros c (D1 & D2 & D3). rewrite D1, D2, Q2, La. auto.
  - cbv beta. intros e c (D1 & D2 & D3) [[[[Hpre [Hpc _]] HR] HB] HZ] HS x Hx. specialize (HR mz x Hpc Hx). destruct HR as (Hb & _ & _ & Hpr).
    specialize (HS _ (HZ x Hx)). rewrite HB in Hb. change (@F0 p) with (fbool (p:=p) false) in Hb. apply fbool_inj in Hb. symmetry in Hb. apply Z.ltb_ge in Hb.
    assert (Ebits : c_bits c = n). { rewrite D2, Q2. destruct Hx as [-> _]. lia. }
    split; auto. unfold negmod. destruct (Z.eqb_spec x 0) as [->|Hx0].
    + split; [eapply same_proper; eauto|]. intros He Hv. subst e. rewrite D3, (HZ 0 Hx), Fis0_fbool. cbn. auto.
    + split; [eapply same_proper; eauto|]. intros He Hv. subst e. rewrite D3, (HZ x Hx), Fis0_fbool. destruct (Z.eqb_spec x 0); [lia|]. cbn [negb]. rewrite Q3, P3. lia.
  - intros c _ y Hy. apply in_or_app. now left.
Qed.
End FpProofs2.
