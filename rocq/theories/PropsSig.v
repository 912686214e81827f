(** Property theorems C61-C62: signature verification (halo2-ecc/src/ecc/ecdsa.rs, halo2-ecc/src/ecc/schnorr_signature.rs).
    Reading guide: PropsMsm.v. The specifications are the textbook verification equations, over integers and the group law of EcGroup.v. *)
From Coq Require Import ZArith Znumtheory Lia List Bool Ring.
From Verif Require Import Field Spec Context ContextProofs Utils Logic Gate GateProofs ChainProofs IPProofs BitProofs PowProofs IPComp Derived Calc CalcH
  Range RangeProofs RangeProofs2 RangeProofs3 BigInt BigSpec BigNum BigPrims BigOps BigSel BigCmp BigSub BigCarry BigMod BigCrtNum BigCrt
  FpChip FpProofs FpProofs2 FpProofs3 FpField FpField2 FpField3 Bn254Primes PropsBigInt PropsFp EcGroup EccFacts SafeTypes Ecc EccProofs EccProofs2 EccProofs3 PropsEcc EcComb SafeProofs2 MsmProofs MsmProofs2 PropsMsm FixedBase FixedProofs PropsFixed Ecdsa Bn254Order.
Import ListNotations.
Local Open Scope Z_scope.

Section SigSpec.
Context {p : positive} (m o : positive) (n : nat).
(** The textbook ECDSA verification of the signature [(r, s)] of the digest [h] (integers) under the key [pk], generator [g], group order [o]. *)
Definition ecdsa_valid (g pk : pt m) (r s h : Z) : Prop :=
  1 <= r < Z.pos o /\ 1 <= s < Z.pos o /\
  exists (u1 u2 : Z) (x y : F m), 0 <= u1 < Z.pos o /\ 0 <= u2 < Z.pos o /\ (Z.pos o | u1 * s - h) /\ (Z.pos o | u2 * s - r) /\
    eadd m (emul m (Z.to_nat u1) g) (emul m (Z.to_nat u2) pk) = Some (x, y) /\ val x mod Z.pos o = r.
(** BIP-340 verification of [(r, s)] with challenge [e]: [R = s * g - e * pk] is finite, has an even y-coordinate and x-coordinate [r]. *)
Definition schnorr_valid (g pk : pt m) (r s e : Z) : Prop :=
  0 <= r < Z.pos m /\ 0 <= s < Z.pos o /\ 0 <= e < Z.pos o /\
  exists x y : F m, eadd m (emul m (Z.to_nat s) g) (eneg m (emul m (Z.to_nat e) pk)) = Some (x, y) /\ Z.even (val y) = true /\ val x = r.
(** [c] holds the integer [x], of at most as many bits as [o], in proper limbs *)
Definition holds (e : env (p:=p)) (c : crt p) (x : Z) : Prop := proper n e c x /\ x < 2 ^ Z.of_nat (bits (Z.pos o)).
(** a finite point of the curve whose order is [o] *)
Definition generator (b : F m) (g : pt m) : Prop := onc m b g /\ g <> None /\ emul m (Pos.to_nat o) g = None.
End SigSpec.

Section Sig.
Context (p m o : positive) (lb : nat) (Hp : prime (Z.pos p)) (Hlb : (1 <= lb < 64)%nat) (Hlb2 : (2 * lb <= CAPACITY p)%nat) (Hm : prime (Z.pos m)) (H3 : 3 < Z.pos m).
(** the group order; as in secp256k1 and BN254 it does not exceed the base modulus *)
Context (Ho : prime (Z.pos o)) (Ho2 : 2 < Z.pos o) (Hom : Z.pos o <= Z.pos m).
Context (n k : nat) (ch : fpchip p) (HN : fpchip_new m n k = Some ch) (HK : fp_params (p:=p) lb m n k) (HKo : fp_params (p:=p) lb o n k).
Notation M2 := (2 ^ Z.of_nat (bits (Z.pos m))).
Notation O2 := (2 ^ Z.of_nat (bits (Z.pos o))).
Notation W := (2 ^ Z.of_nat (n * k + NUM_BITS p)).
Context (HE1 : (Nat.max (log2_ceil (Z.of_nat k) + 2 * n + 5) (2 * n + bit_length (Z.of_nat k)) + lb + 2 <= CAPACITY p)%nat)
  (HE2 : 64 * (M2 * M2) < W) (HE3 : 64 * (O2 * O2) < W).
Context (b : F m) (Hb : b <> F0).
Notation ecpt := (ecpt p).
Notation at_pt := (at_pt (p:=p) m n).
Notation shape := (shape (p:=p) n k).
Notation onc2 := (onc2 m b).
Notation onc := (onc m b).
Notation eadd := (eadd m).
Notation eneg := (eneg m).
Notation pt := (pt m).
Notation sound := (sound lb).
Notation enc := (enc (p:=p) m n b).
Notation holds := (holds (p:=p) o n).
Notation generator := (generator m o b).
Add Ring Fring : (F_ring p) (morphism (F_morph p), constants [Fcst]).
Let Hm1 : 1 < Z.pos m. Proof. lia. Qed.
Let Ho1 : 1 < Z.pos o. Proof. lia. Qed.

Lemma n_pow_le : 2 ^ Z.of_nat n <= Z.pos p.
Proof. destruct (ch_sizes lb m Hlb Hlb2 n k HK) as (_ & _ & _ & _ & H). pose proof (CAPACITY_bound p) as [B _]. apply Z.le_trans with (2 ^ Z.of_nat (CAPACITY p)); [apply Z.pow_le_mono_r; lia|lia]. Qed.
Lemma rep_proper (e : env (p:=p)) (c : crt p) x ts : proper n e c x -> Forall2 (rep n e) (c_limbs c) ts -> undigits n ts = x.
Proof.
  intros (_ & _ & -> & _) F. f_equal. pose proof n_pow_le as Hle. clear - F Hle. induction F as [|s t l l' [B E] _ IH]; [reflexivity|]. cbn [map]. rewrite IH. f_equal.
  rewrite <- E. symmetry. apply val_of_Z_small. lia.
Qed.
Lemma holds_over e c x : holds e c x -> over o n e c O2 (of_Z o x).
Proof. intros [A B]. pose proof (proper_bound _ _ _ _ A). exists x. split; [now apply proper_crep|]. split; [lia|reflexivity]. Qed.
(** multiples of a point of order [o] *)
Lemma gen_nz g x : generator g -> 0 <= x -> ~ (Z.pos o | x) -> emul m (Z.to_nat x) g <> None.
Proof.
  intros (O & Ng & Eo) Hx ND E. apply ND. rewrite <- (Z2Nat.id x Hx). rewrite <- positive_nat_Z. apply (prime_order m Hm H3 b Hb g); auto. rewrite positive_nat_Z. exact Ho.
Qed.
Lemma gen_y g : generator g -> y_nonzero m g.
Proof.
  intros G. pose proof G as (O & Ng & Eo). destruct g as [[x y]|]; [|exact I]. cbn. intros ->. apply (gen_nz (Some (x, F0)) 2 G ltac:(lia)).
  { intros D. apply Z.divide_pos_le in D; lia. }
  change (Z.to_nat 2) with 2%nat. cbn [EcGroup.emul]. rewrite (eadd_0_r m). 
  replace (eadd (Some (x, F0)) (Some (x, F0))) with (eadd (Some (x, F0)) (eneg (Some (x, F0)))); [apply (eadd_neg_r m Hm)|].
  f_equal.
Qed.
Lemma enc_finite e P g : enc e P g -> g <> None -> exists u v, g = Some (u, v) /\ at_pt e P u v /\ onc2 u v.
Proof. destruct g as [[x y]|]; [intros [A O] _; exists x, y; auto|congruence]. Qed.
(** [u * g] for a constant generator, [u * pk] for a variable point *)
Lemma g_fixed ax ay rx ry gx gy (u : crt p) w : generator (Some (gx, gy)) -> (0 < w)%nat -> 2 ^ Z.of_nat w < Z.pos o -> Z.of_nat w < Z.pos p ->
  sound (fixed_scalar_multiply lb m ch b ax ay rx ry (Some (gx, gy)) (c_limbs u) n w) shape
    (fun sg R => forall x, proper n (avs sg) u x -> enc (avs sg) R (emul m (Z.to_nat x) (Some (gx, gy)))).
Proof.
  intros (O & Ng & Eo) Hw H2w Hwp.
  eapply sound_weaken; [apply (C60_fixed_base_sound p m lb Hp Hlb Hlb2 Hm H3 n k ch HN HK HE1 HE2 b Hb ax ay rx ry gx gy (c_limbs u) n w O)| |].
  - apply (prime_order_tables p m lb Hlb Hlb2 Hm H3 n k HE1 HE2 b Hb (Some (gx, gy)) w _ (Pos.to_nat o)); auto; rewrite positive_nat_Z; auto.
  - exact Hwp.
  - auto.
  - cbv beta. intros sg R _ (ts & F & H) x Hx. rewrite <- (rep_proper _ _ _ _ Hx F). exact H.
Qed.
Lemma g_var ax ay rx ry P (u : crt p) w : shape P ->
  sound (scalar_multiply lb m ch b ax ay rx ry P (c_limbs u) n w) shape
    (fun sg R => forall g x, enc (avs sg) P g -> y_nonzero m g -> proper n (avs sg) u x -> enc (avs sg) R (emul m (Z.to_nat x) g)).
Proof.
  intros KP. eapply sound_weaken; [apply (proj1 (C58_scalar_multiply p m lb Hp Hlb Hlb2 Hm H3 n k ch HN HK HE1 HE2 b Hb ax ay rx ry P (c_limbs u) n w KP))|auto|].
  cbv beta. intros sg R _ H g x Hg Hy Hx. destruct (H g Hg Hy) as (ts & F & H'). rewrite <- (rep_proper _ _ _ _ Hx F). exact H'.
Qed.
Lemma and_bits (a c : AV p) : sound (and (Existing a) (Existing c)) (fun _ => True)
  (fun sg r => forall x y : bool, avs sg a = fbool x -> avs sg c = fbool y -> avs sg r = fbool (x && y)).
Proof.
  eapply sound_weaken; [apply mul_sound|auto|]. cbn. intros sg r _ (x & y & -> & -> & E) u v Hu Hv. rewrite E, Hu, Hv. clear.
  destruct u, v; cbn [andb fbool]; ring.
Qed.
Lemma not_bit (a : AV p) : sound (Gate.not (Existing a)) (fun _ => True) (fun sg r => forall x : bool, avs sg a = fbool x -> avs sg r = fbool (negb x)).
Proof. eapply sound_weaken; [apply not_sound|auto|]. cbn. intros sg r _ (x & -> & E) u Hu. rewrite E, Hu. clear. destruct u; cbn [negb fbool]; ring. Qed.
Lemma or_bits (a c : AV p) : sound (Gate.or (Existing a) (Existing c)) (fun _ => True)
  (fun sg r => forall x y : bool, avs sg a = fbool x -> avs sg c = fbool y -> avs sg r = fbool (x || y)).
Proof.
  eapply sound_weaken; [apply or_sound|auto|]. cbn. intros sg r _ (x & y & -> & -> & E) u v Hu Hv. rewrite E, Hu, Hv. clear.
  destruct u, v; cbn [orb fbool]; ring.
Qed.
(** [enforce_less_than] of a chip for [o] on any proper number *)
Lemma enforce_o sch (a : crt p) : fpchip_new o n k = Some sch -> isk k a n ->
  sound (fp_enforce_less_than lb sch a) (fun c => c = a) (fun sg _ => forall x, proper n (avs sg) a x -> x < Z.pos o).
Proof.
  intros HS Ka. unfold fp_enforce_less_than. eapply sound_bind.
  - pose proof (h_enforce_less_than_p lb o Hp Hlb Hlb2 Ho1 sch n k HS HKo (ccells a) (fun _ => True) False a (incl_refl _) (proj1 Ka) ltac:(tauto)) as H.
    eapply (sound_weaken lb _ _ _ (fun _ => True) (fun sg _ => forall x, proper n (avs sg) a x -> x < Z.pos o)); [apply (h_sound lb _ _ _ _ _ H)|auto|]. intros sg u _ K. exact K.
  - cbv beta. intros u Hu. apply sound_ret; [reflexivity|]. auto.
Qed.
Lemma fbool_1 (x : bool) : (fbool x : F p) = F1 -> x = true.
Proof. destruct x; [reflexivity|]. intros E. exfalso. apply (F1_neq_0 p Hp). symmetry. exact E. Qed.
Lemma divide_o sch (a c : crt p) : fpchip_new o n k = Some sch -> isk k a n -> isk k c n ->
  sound (fp_divide_unsafe lb o sch a c) (fun u => isk k u n)
    (fun sg u => forall x y, holds (avs sg) a x -> holds (avs sg) c y -> exists z, proper n (avs sg) u z /\ 0 <= z /\ (Z.pos o | z * y - x)).
Proof.
  intros HS Ka Kc.
  eapply sound_weaken; [apply (proj1 (C53_divide_unsafe_sound p o lb Hp Hlb Hlb2 Ho n k sch HS HKo a c n n Ka Kc
    ltac:(apply (fit_zero_simple lb o Hlb Hlb2 n k); clear - HE1; lia)))|cbv beta; auto|cbv beta].
  intros sg u _ H x y Hx Hy. destruct (H O2 O2 _ _ (holds_over _ _ _ Hx) (holds_over _ _ _ Hy)) as (w & (z & Pz & _ & Ez) & E & _).
  { assert (1 <= O2) by (apply (Z.pow_le_mono_r 2 0); lia). clear - HE3 H0. nia. }
  exists z. split; [exact Pz|]. split; [apply (proper_bound _ _ _ _ Pz)|]. rewrite <- Ez, <- of_Z_mul in E. apply (f_equal val) in E. rewrite !val_of_Z in E.
  apply Z.mod_divide; [lia|]. rewrite Zminus_mod, E, Z.sub_diag. apply Z.mod_0_l. lia.
Qed.

Lemma big_eq (a c : crt p) : sound (big_is_equal (c_limbs a) (c_limbs c)) (fun _ => True)
  (fun sg r => exists q : bool, avs sg r = fbool q /\ forall x y, proper n (avs sg) a x -> proper n (avs sg) c y -> q = (x =? y)).
Proof.
  pose proof (h_big_is_equal lb Hp Hlb Hlb2 (c_limbs a ++ c_limbs c) (fun _ => True) False (c_limbs a) (c_limbs c) ltac:(apply incl_appl, incl_refl) ltac:(apply incl_appr, incl_refl) ltac:(tauto)) as H.
  eapply sound_weaken; [apply (h_sound lb _ _ _ _ _ H)|auto|]. cbv beta. intros sg r [HL _] E. exists (alleq (avs sg) (c_limbs a) (c_limbs c)). split; [exact E|].
  intros x y Hx Hy. exact (proper_alleq lb Hlb Hlb2 n _ a c x y Hx Hy HL).
Qed.

Theorem C61_ecdsa_sound : forall (d : draws m) (gx gy : F m) (pubkey : ecpt) (r s msghash : crt p) (var_window_bits fixed_window_bits : nat),
  generator (Some (gx, gy)) -> (0 < fixed_window_bits)%nat -> 2 ^ Z.of_nat fixed_window_bits < Z.pos o -> Z.of_nat fixed_window_bits < Z.pos p ->
  shape pubkey -> isk k r n -> isk k s n -> isk k msghash n ->
  sound (ecdsa_verify lb m o ch b d gx gy pubkey r s msghash var_window_bits fixed_window_bits) (fun _ => True)
    (fun sg res => forall (px py : F m) (rv sv hv : Z), at_pt (avs sg) pubkey px py -> generator (Some (px, py)) ->
       holds (avs sg) r rv -> holds (avs sg) s sv -> holds (avs sg) msghash hv ->
       is_bit (avs sg res) /\ (~ (Z.pos o | hv) -> avs sg res = F1 -> ecdsa_valid m o (Some (gx, gy)) (Some (px, py)) rv sv hv)).
Proof.
  intros d gx gy PK r s h vw fw HG Hfw H2w Hwp KPK Kr Ks Kh. unfold ecdsa_verify.
  pose proof (ch_ok lb m Hp Hlb Hlb2 Hm1 ch n k HN) as (C1 & C2 & _ & _ & C5 & _). rewrite C1, C2.
  apply sound_lift_bind. intros sch HS. pose proof (ch_ok lb o Hp Hlb Hlb2 Ho1 sch n k HS) as (S1 & S2 & _ & _ & _ & _ & S7 & _). rewrite S1, S2, S7.
  destruct (ch_sizes lb o Hlb Hlb2 n k HKo) as (Z1 & Z2 & Z3 & Z4 & Z5).
  apply sound_lift_bind. intros nl Enl.
  unfold decompose_biguint in Enl. rewrite decompose_biguint_limbs_correct in Enl by lia. injection Enl as <-.
  eapply sound_bind; [apply (sound_mapM lb _ (fun _ _ => True) (fun sg c a => avs sg a = c)); intros x _; apply sound_load_constant|]. cbv beta. intros nn Knn.
  eapply sound_bind; [apply (proj2 (proj2 (proj2 (proj2 (proj2 (C52_tests_sound p o lb Hp Hlb Hlb2 Ho n k sch HS HKo r r Kr Kr))))))|]. cbv beta. intros rvd _.
  eapply sound_bind; [apply (proj2 (proj2 (proj2 (proj2 (proj2 (C52_tests_sound p o lb Hp Hlb Hlb2 Ho n k sch HS HKo s s Ks Ks))))))|]. cbv beta. intros svd _.
  eapply sound_bind; [apply (divide_o sch h s HS Kh Ks)|]. cbv beta. intros u1 Ku1.
  eapply sound_bind; [apply (divide_o sch r s HS Kr Ks)|]. cbv beta. intros u2 Ku2.
  eapply sound_bind; [apply (g_fixed _ _ _ _ gx gy u1 fw HG Hfw H2w Hwp)|]. intros U1 KU1.
  eapply sound_bind; [apply (g_var _ _ _ _ PK u2 vw KPK)|]. intros U2 KU2.
  eapply sound_bind; [apply (proj1 (proj2 (C52_tests_sound p m lb Hp Hlb Hlb2 Hm n k ch HN HK _ _ (proj1 KU1) (proj1 KU2))))|]. cbv beta. intros xeq _.
  eapply sound_bind; [apply not_bit|]. cbv beta. intros xneq _.
  eapply sound_bind; [apply (proj1 (proj2 (C52_tests_sound p m lb Hp Hlb Hlb2 Hm n k ch HN HK _ _ (proj2 KU1) (proj2 KU2))))|]. cbv beta. intros yeq _.
  eapply sound_bind; [apply or_bits|]. cbv beta. intros nneg _.
  eapply sound_bind; [apply (C59_sum_sound p m lb Hp Hlb Hlb2 Hm H3 n k ch HN HK HE1 HE2 b Hb _ _ [U1; U2])|]. { constructor; [exact KU1|]. constructor; [exact KU2|constructor]. }
  intros S KS.
  eapply sound_bind; [apply (enforce_o sch (px S) HS (proj1 KS))|]. cbv beta. intros x1 ->.
  eapply sound_bind; [apply big_eq|]. cbv beta. intros eqc _.
  apply sound_lift_bind. intros b1 Eb1.
  assert (b1 = of_Z p (2 ^ Z.of_nat n)) as ->.
  { unfold base1 in Eb1. rewrite C5 in Eb1. destruct k as [|[|k']]; [lia|lia|]. cbn in Eb1. injection Eb1 as <-. f_equal. lia. }
  eapply sound_bind; [apply (proj1 (C46_big_less_than p lb Hp Hlb Hlb2 n (c_limbs u1) nn ltac:(lia) Z5))|]. cbv beta. intros u1s _.
  eapply sound_bind; [apply (proj1 (C46_big_less_than p lb Hp Hlb Hlb2 n (c_limbs u2) nn ltac:(lia) Z5))|]. cbv beta. intros u2s _.
  eapply sound_bind; [apply and_bits|]. cbv beta. intros r1 _.
  eapply sound_bind; [apply and_bits|]. cbv beta. intros r2 _.
  eapply sound_bind; [apply and_bits|]. cbv beta. intros r3 _.
  eapply sound_bind; [apply and_bits|]. cbv beta. intros r4 _.
  eapply sound_weaken; [apply mul_sound|auto|]. cbn [qsem].
  intros sg out _ (v4 & v5 & -> & -> & A5) A4 A3 A2 A1 L2 L1 EQ LT SM NN YE XN XE M2' M1 D2 D1 SV RV NV qx qy rv sv hv HPK GPK Hr Hs Hh.
  destruct EQ as (qe & EQ0 & EQ).
  (* the order in limbs *)
  assert (EN : undigits n (map (fun c => val (avs sg c)) nn) = Z.pos o /\ Forall (fun c => val (avs sg c) < 2 ^ Z.of_nat n) nn).
  { assert (E : map (avs sg) nn = map (of_Z p) (digits n k (Z.pos o))). { clear - NV. induction NV; cbn; congruence. }
    assert (E' : map (fun c => val (avs sg c)) nn = digits n k (Z.pos o)).
    { rewrite <- (map_map (avs sg) val), E, map_map. rewrite <- (map_id (digits n k (Z.pos o))) at 2. apply map_ext_in. intros x Hx. apply val_of_Z_small.
      pose proof (digits_bound n k (Z.pos o)) as B. rewrite Forall_forall in B. specialize (B x Hx). pose proof n_pow_le. lia. }
    split; [rewrite E', undigits_digits; apply Z.mod_small; lia|].
    apply Forall_forall. intros c Hc. pose proof (digits_bound n k (Z.pos o)) as B. rewrite <- E' in B. rewrite Forall_forall in B. apply (B (val (avs sg c))). apply (in_map (fun c => val (avs sg c))). exact Hc. }
  destruct EN as [EN1 EN2].
  destruct (D1 hv sv Hh Hs) as (z1 & P1 & N1 & Q1). destruct (D2 rv sv Hr Hs) as (z2 & P2 & N2 & Q2).
  assert (PL : forall (u : crt p) z, proper n (avs sg) u z -> Forall (fun c => val (avs sg c) < 2 ^ Z.of_nat n) (c_limbs u) /\ undigits n (map (fun c => val (avs sg c)) (c_limbs u)) = z).
  { intros u z (_ & X & Y & _). split; [exact X|symmetry; exact Y]. }
  destruct (PL u1 z1 P1) as [X1 Y1]. destruct (PL u2 z2 P2) as [X2 Y2].
  specialize (L1 X1 EN2). specialize (L2 X2 EN2). rewrite Y1, EN1 in L1. rewrite Y2, EN1 in L2.
  pose proof (RV rv (proj1 Hr)) as BR. pose proof (SV sv (proj1 Hs)) as BS.
  (* point multiples *)
  pose proof (M1 z1 P1) as E1. pose proof (M2' (Some (qx, qy)) z2 (conj HPK (proj1 GPK)) (gen_y _ GPK) P2) as E2.
  assert (F1' : forall g u, enc (avs sg) u g -> exists x y, at_pt (avs sg) u x y).
  { intros [[x y]|] u He; [exists x, y; apply He|exists F0, F0; exact He]. }
  destruct (F1' _ _ E1) as (a1 & c1 & T1). destruct (F1' _ _ E2) as (a2 & c2 & T2).
  destruct (XE a1 a2 (proj1 T1) (proj1 T2)) as (_ & _ & BX). destruct (YE c1 c2 (proj2 T1) (proj2 T2)) as (_ & _ & BY).
  assert (FB : forall q : bool, (if q then F1 else F0 : F p) = fbool q) by reflexivity.
  rewrite FB in BX, BY, BR, BS, L1, L2.
  pose proof (XN _ BX) as BXn. pose proof (NN _ _ BXn BY) as BN.
  assert (NZs : ~ (Z.pos o | sv) -> True) by auto.
  pose proof (A1 _ _ BR BS) as B1. pose proof (A2 _ _ B1 L1) as B2. pose proof (A3 _ _ B2 L2) as B3. pose proof (A4 _ _ B3 BN) as B4.
  split; [rewrite A5, B4, EQ0; match goal with |- is_bit (fbool ?x * _)%F => destruct x, qe; [right|left|left|left]; cbn [fbool]; ring end|]. intros Nh Hout.
  rewrite Hout, B4, EQ0 in A5. clear A1 A2 A3 A4 B1 B2 B3 B4 NN XN BXn.
  match type of A5 with _ = (fbool ?q * _)%F => destruct q eqn:Eq end.
  2:{ exfalso. apply (F1_neq_0 p Hp). rewrite A5. cbn [fbool]. ring. }
  apply andb_true_iff in Eq as [Eq _]. apply andb_true_iff in Eq as [Eq L2']. apply andb_true_iff in Eq as [Eq L1']. apply andb_true_iff in Eq as [R' S'].
  apply Z.ltb_lt in L1', L2'. apply andb_true_iff in R' as [R1 R2]. apply andb_true_iff in S' as [T1' T2']. apply Z.ltb_lt in R2, T2'. apply negb_true_iff, Z.eqb_neq in R1, T1'.
  pose proof (proper_bound _ _ _ _ (proj1 Hr)) as [Br _]. pose proof (proper_bound _ _ _ _ (proj1 Hs)) as [Bs _].
  assert (NR : ~ (Z.pos o | rv)) by (intros D; apply Z.divide_pos_le in D; lia).
  assert (G1 : emul m (Z.to_nat z1) (Some (gx, gy)) <> None).
  { apply (gen_nz _ _ HG N1). intros D. apply Nh. replace hv with (z1 * sv - (z1 * sv - hv)) by ring. apply Z.divide_sub_r; [apply Z.divide_mul_l; exact D|exact Q1]. }
  assert (G2 : emul m (Z.to_nat z2) (Some (qx, qy)) <> None).
  { apply (gen_nz _ _ GPK N2). intros D. apply NR. replace rv with (z2 * sv - (z2 * sv - rv)) by ring. apply Z.divide_sub_r; [apply Z.divide_mul_l; exact D|exact Q2]. }
  destruct (SM [emul m (Z.to_nat z1) (Some (gx, gy)); emul m (Z.to_nat z2) (Some (qx, qy))]) as (x & y & AS & ES).
  { constructor; [exact (enc_finite _ _ _ E1 G1)|]. constructor; [exact (enc_finite _ _ _ E2 G2)|constructor]. }
  destruct AS as [(z & Pz & Bz & Vz) _]. specialize (LT z Pz). pose proof (proper_bound _ _ _ _ Pz) as [Bz0 _].
  rewrite (EQ z rv Pz (proj1 Hr)) in A5. destruct (Z.eqb_spec z rv) as [Ez|Hne]. 
  2:{ exfalso. apply (F1_neq_0 p Hp). rewrite A5. cbn [fbool]. ring. }
  split; [lia|]. split; [lia|]. exists z1, z2, x, y. split; [lia|]. split; [lia|]. split; [exact Q1|]. split; [exact Q2|].
  split; [unfold psum in ES; cbn [fold_right] in ES; rewrite (eadd_0_r m) in ES; exact ES|].
  rewrite <- Vz, Ez, (val_of_Z_small m rv) by lia. apply Z.mod_small. lia.
Qed.

Theorem C62_schnorr_sound : forall (d : draws m) (gx gy : F m) (pubkey : ecpt) (r s msgHash : crt p) (var_window_bits fixed_window_bits : nat),
  generator (Some (gx, gy)) -> (0 < fixed_window_bits)%nat -> 2 ^ Z.of_nat fixed_window_bits < Z.pos o -> Z.of_nat fixed_window_bits < Z.pos p ->
  shape pubkey -> isk k r n -> isk k s n -> isk k msgHash n ->
  sound (schnorr_verify lb m o ch b d gx gy pubkey r s msgHash var_window_bits fixed_window_bits) (fun _ => True)
    (fun sg res => forall (px py : F m) (rv sv ev : Z), at_pt (avs sg) pubkey px py -> generator (Some (px, py)) ->
       proper n (avs sg) r rv -> proper n (avs sg) s sv -> proper n (avs sg) msgHash ev ->
       is_bit (avs sg res) /\ (avs sg res = F1 -> schnorr_valid m o (Some (gx, gy)) (Some (px, py)) rv sv ev) /\
       (** the circuit also forces the x-coordinate below the group order, which BIP-340 does not: valid signatures with larger [r] cannot be proved *)
       (schnorr_valid m o (Some (gx, gy)) (Some (px, py)) rv sv ev -> sv <> 0 -> ev <> 0 -> rv < Z.pos o)).
Proof.
  intros d gx gy PK r s h vw fw HG Hfw H2w Hwp KPK Kr Ks Kh. unfold schnorr_verify.
  pose proof (ch_ok lb m Hp Hlb Hlb2 Hm1 ch n k HN) as (C1 & C2 & _ & _ & C5 & _). rewrite C1, C2.
  apply sound_lift_bind. intros sch HS. 
  eapply sound_bind; [apply (proj1 (C51_is_less_than_p_and_parity p m lb Hp Hlb Hlb2 Hm n k ch HN HK r Kr))|]. cbv beta. intros rvd _.
  eapply sound_bind; [apply (proj2 (proj2 (proj2 (proj2 (proj2 (C52_tests_sound p o lb Hp Hlb Hlb2 Ho n k sch HS HKo s s Ks Ks))))))|]. cbv beta. intros svd _.
  eapply sound_bind; [apply (proj2 (proj2 (proj2 (proj2 (proj2 (C52_tests_sound p o lb Hp Hlb Hlb2 Ho n k sch HS HKo h h Kh Kh))))))|]. cbv beta. intros evd _.
  eapply sound_bind; [apply (g_fixed _ _ _ _ gx gy s fw HG Hfw H2w Hwp)|]. intros U1 KU1.
  eapply sound_bind; [apply (g_var _ _ _ _ PK h vw KPK)|]. intros U2 KU2.
  eapply sound_bind; [apply (proj1 (proj2 (C52_tests_sound p m lb Hp Hlb Hlb2 Hm n k ch HN HK _ _ (proj1 KU1) (proj1 KU2))))|]. cbv beta. intros xeq _.
  eapply sound_bind; [apply not_bit|]. cbv beta. intros xneq _.
  eapply sound_bind; [apply (C54_sub_unequal_sound p m lb Hp Hlb Hlb2 Hm H3 n k ch HN HK HE1 HE2 (NonStrict U1) (NonStrict U2) true KU1 KU2)|]. intros R KR.
  eapply sound_bind; [apply (proj1 (proj2 (C51_is_less_than_p_and_parity p m lb Hp Hlb Hlb2 Hm n k ch HN HK (py R) (proj2 KR))))|]. cbv beta. intros ev _.
  eapply sound_bind; [apply (enforce_o sch (px R) HS (proj1 KR))|]. cbv beta. intros x1 ->.
  eapply sound_bind; [apply big_eq|]. cbv beta. intros eqc _.
  eapply sound_bind; [apply and_bits|]. cbv beta. intros r1 _.
  eapply sound_bind; [apply and_bits|]. cbv beta. intros r2 _.
  eapply sound_bind; [apply and_bits|]. cbv beta. intros r3 _.
  eapply sound_bind; [apply and_bits|]. cbv beta. intros r4 _.
  eapply sound_weaken; [apply and_bits|auto|]. cbv beta.
  intros sg out _ A5 A4 A3 A2 A1 (qe & EQ0 & EQ) LT EV SM XN XE M2' M1 EVD SVD RVD qx qy rv sv hv HPK GPK Hr Hs Hh.
  pose proof (RVD rv Hr) as BR. pose proof (SVD sv Hs) as BS. pose proof (EVD hv Hh) as BE.
  pose proof (M1 sv Hs) as E1. pose proof (M2' (Some (qx, qy)) hv (conj HPK (proj1 GPK)) (gen_y _ GPK) Hh) as E2.
  assert (F1' : forall g u, enc (avs sg) u g -> exists x y, at_pt (avs sg) u x y).
  { intros [[x y]|] u He; [exists x, y; apply He|exists F0, F0; exact He]. }
  destruct (F1' _ _ E1) as (a1 & c1 & T1). destruct (F1' _ _ E2) as (a2 & c2 & T2).
  destruct (XE a1 a2 (proj1 T1) (proj1 T2)) as (_ & _ & BX).
  assert (FB : forall q : bool, (if q then F1 else F0 : F p) = fbool q) by reflexivity.
  rewrite FB in BX, BR, BS, BE. pose proof (XN _ BX) as BXn.
  destruct (SM a1 c1 a2 c2 T1 T2 ltac:(discriminate)) as (_ & x3 & y3 & AR & _). destruct AR as [ARx ARy]. destruct (EV y3 ARy) as [_ BEv]. rewrite FB in BEv.
  pose proof (A1 _ _ BR BS) as B1. pose proof (A2 _ _ B1 BE) as B2. pose proof (A3 _ _ B2 BXn) as B3. pose proof (A4 _ _ B3 BEv) as B4. pose proof (A5 _ _ B4 EQ0) as B5.
  split; [rewrite B5; match goal with |- is_bit (fbool ?x) => destruct x; [right|left]; reflexivity end|].
  assert (G0 : sv <> 0 -> sv < Z.pos o -> emul m (Z.to_nat sv) (Some (gx, gy)) <> None).
  { intros N L. pose proof (proper_bound _ _ _ _ Hs) as [Bs _]. apply (gen_nz _ _ HG Bs); intros D; apply Z.divide_pos_le in D; lia. }
  assert (G0' : hv <> 0 -> hv < Z.pos o -> emul m (Z.to_nat hv) (Some (qx, qy)) <> None).
  { intros N L. pose proof (proper_bound _ _ _ _ Hh) as [Bs _]. apply (gen_nz _ _ GPK Bs); intros D; apply Z.divide_pos_le in D; lia. }
  split.
  2:{ intros (_ & Ls & Le & x & y & E & _ & Vx) Ns Ne.
      destruct (enc_finite _ _ _ E1 (G0 Ns (proj2 Ls))) as (u1 & v1 & Eq1 & At1 & _). destruct (enc_finite _ _ _ E2 (G0' Ne (proj2 Le))) as (u2 & v2 & Eq2 & At2 & _).
      destruct (SM u1 v1 u2 v2 At1 At2 ltac:(discriminate)) as (_ & x' & y' & [(z & Pz & Bz & Vz) Ay] & ES).
      assert (EX : Some (x', y') = Some (x, y)) by (refine (eq_trans (eq_sym ES) _); rewrite <- Eq1, <- Eq2; exact E). injection EX as -> ->.
      specialize (LT z Pz). pose proof (proper_bound _ _ _ _ Pz) as [Bz0 _]. rewrite <- Vx, <- Vz, val_of_Z. pose proof (Z.mod_le z (Z.pos m) Bz0 ltac:(lia)). lia. }
  intros Hout. rewrite Hout in B5. symmetry in B5. apply fbool_1 in B5.
  apply andb_true_iff in B5 as [Eq Qe]. apply andb_true_iff in Eq as [Eq Qev]. apply andb_true_iff in Eq as [Eq _]. apply andb_true_iff in Eq as [Eq E']. apply andb_true_iff in Eq as [R' S'].
  apply Z.ltb_lt in R'. apply andb_true_iff in S' as [S1 S2]. apply andb_true_iff in E' as [E1' E2']. apply Z.ltb_lt in S2, E2'. apply negb_true_iff, Z.eqb_neq in S1, E1'.
  pose proof (proper_bound _ _ _ _ Hr) as [Br _]. pose proof (proper_bound _ _ _ _ Hs) as [Bs _]. pose proof (proper_bound _ _ _ _ Hh) as [Bh _].
  pose proof (G0 S1 S2) as G1. pose proof (G0' E1' E2') as G2.
  split; [lia|]. split; [lia|]. split; [lia|].
  destruct (enc_finite _ _ _ E1 G1) as (u1 & v1 & Eq1 & At1 & _). destruct (enc_finite _ _ _ E2 G2) as (u2 & v2 & Eq2 & At2 & _).
  destruct (SM u1 v1 u2 v2 At1 At2 ltac:(discriminate)) as (_ & x & y & [(z & Pz & Bz & Vz) Ay] & ES).
  exists x, y. split; [rewrite Eq1, Eq2; exact ES|].
  destruct (EV y Ay) as [_ Ey]. rewrite FB in Ey. rewrite Ey in BEv. split.
  - rewrite <- Qev. destruct (Z.even (val y)), (Z.even (val y3)); try reflexivity; exfalso; apply (F1_neq_0 p Hp); [exact BEv|exact (eq_sym BEv)].
  - rewrite (EQ z rv Pz Hr) in Qe. apply Z.eqb_eq in Qe. subst z. rewrite <- Vz. apply val_of_Z_small. lia.
Qed.
End Sig.

(** Concrete case: BN254 with its generator (1, 2) as generator and public key (Bn254Order.v proves its order), numbers loaded by the scalar chip. *)
Section Instance.
Local Open Scope monad_scope.
Notation lb := 17%nat.
Notation n := 88%nat.
Notation k := 3%nat.
Notation q := bn_q.
Notation r := bn_r.
Lemma bn_bits_r : bits (Z.pos bn_r) = 254%nat. Proof. vm_compute. reflexivity. Qed.
Lemma bn_fp_params_r : fp_params (p:=bn_r) lb bn_r n k.
Proof. unfold fp_params, sizes_ok, lwidth. rewrite bn_cap, bn_bits_r, bn_nb. destruct bn_pad as [-> ->]. repeat split; try lia. Qed.
Lemma bn_he3 : 64 * (2 ^ Z.of_nat (bits (Z.pos bn_r)) * 2 ^ Z.of_nat (bits (Z.pos bn_r))) < 2 ^ Z.of_nat (n * k + NUM_BITS bn_r).
Proof. rewrite bn_bits_r, bn_nb. vm_compute. reflexivity. Qed.
Lemma bn_r2 : 2 < Z.pos bn_r. Proof. vm_compute. reflexivity. Qed.
Lemma bn_rq : Z.pos bn_r <= Z.pos bn_q. Proof. vm_compute. discriminate. Qed.
Notation G := (Some (of_Z q 1, of_Z q 2)).
Lemma bn_generator : generator q bn_r bn_b G.
Proof. split; [exact bn_gen_on_curve|]. split; [discriminate|exact bn_gen_order]. Qed.
Example C61_C62_example : forall ch sch d (v1 v2 v3 : F r), fpchip_new (p:=r) q n k = Some ch -> fpchip_new (p:=r) r n k = Some sch ->
  Logic.sound lb
    (PK <- ecc_assign_constant_point q ch (of_Z q 1) (of_Z q 2) ;;
     sr <- fp_load_private lb r sch v1 ;; ss <- fp_load_private lb r sch v2 ;; sh <- fp_load_private lb r sch v3 ;;
     o1 <- ecdsa_verify lb q r ch bn_b d (of_Z q 1) (of_Z q 2) PK sr ss sh 4 8 ;;
     o2 <- schnorr_verify lb q r ch bn_b d (of_Z q 1) (of_Z q 2) PK sr ss sh 4 8 ;; ret (sr, ss, sh, o1, o2))
    (fun _ => True)
    (fun sg a => let '(sr, ss, sh, o1, o2) := a in exists rv sv hv, proper n (avs sg) sr rv /\ proper n (avs sg) ss sv /\ proper n (avs sg) sh hv /\
       (~ (Z.pos r | hv) -> avs sg o1 = F1 -> ecdsa_valid q r G G rv sv hv) /\ (avs sg o2 = F1 -> schnorr_valid q r G G rv sv hv)).
Proof.
  intros ch sch d v1 v2 v3 HN HS. pose proof bn254_r_prime as Hp. pose proof bn254_q_prime as Hq. pose proof bn_fp_params as HK. pose proof bn_fp_params_r as HKo.
  pose proof bn_generator as HG.
  eapply sound_bind; [apply (proj1 (proj2 (proj2 (C55_assign_point bn_r q lb Hp bn_lb bn_2lb bn_lt3 n k ch HN HK bn_he1 bn_he2 bn_b (of_Z q 1) (of_Z q 2)))))|]. intros PK KPK.
  eapply sound_bind; [apply (proj1 (C51_load_sound bn_r r lb Hp bn_lb bn_2lb Hp n k sch HS HKo v1))|]. cbv beta. intros sr Kr.
  eapply sound_bind; [apply (proj1 (C51_load_sound bn_r r lb Hp bn_lb bn_2lb Hp n k sch HS HKo v2))|]. cbv beta. intros ss Ks.
  eapply sound_bind; [apply (proj1 (C51_load_sound bn_r r lb Hp bn_lb bn_2lb Hp n k sch HS HKo v3))|]. cbv beta. intros sh Kh.
  eapply sound_bind.
  { apply (C61_ecdsa_sound bn_r q r lb Hp bn_lb bn_2lb Hq bn_lt3 Hp bn_r2 bn_rq n k ch HN HK HKo bn_he1 bn_he2 bn_he3 bn_b bn_b_nz d (of_Z q 1) (of_Z q 2) PK sr ss sh 4 8 HG);
      [lia|reflexivity|reflexivity|exact KPK|exact Kr|exact Ks|exact Kh]. }
  cbv beta. intros o1 _.
  eapply sound_bind.
  { apply (C62_schnorr_sound bn_r q r lb Hp bn_lb bn_2lb Hq bn_lt3 Hp bn_r2 n k ch HN HK HKo bn_he1 bn_he2 bn_he3 bn_b bn_b_nz d (of_Z q 1) (of_Z q 2) PK sr ss sh 4 8 HG);
      [lia|reflexivity|reflexivity|exact KPK|exact Kr|exact Ks|exact Kh]. }
  cbv beta. intros o2 _. apply sound_ret; [exact I|]. cbv iota beta. intros sg S2 S1 (vh & h & H1 & H2 & _) (vs & s & A1 & A2 & _) (vr & rr & R1 & R2 & _) AP.
  exists rr, s, h. split; [exact R1|]. split; [exact A1|]. split; [exact H1|]. split.
  - exact (proj2 (S1 _ _ rr s h AP HG (conj R1 R2) (conj A1 A2) (conj H1 H2))).
  - exact (proj1 (proj2 (S2 _ _ rr s h AP HG R1 A1 H1))).
Qed.
End Instance.
