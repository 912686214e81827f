(** Property theorems C58 and C59: multi-scalar multiplication, scalar multiplication and sums of points
    (halo2-ecc/src/ecc/mod.rs). Reading guide: [sound] as in PropsGate.v, [at_pt]/[shape] as in PropsEcc.v, the group law as in EcGroup.v. *)
From Coq Require Import ZArith Znumtheory Lia List Bool Ring.
From Verif Require Import Field Spec Context ContextProofs Utils Logic Gate GateProofs ChainProofs IPProofs BitProofs PowProofs IPComp Derived Calc CalcH
  Range RangeProofs RangeProofs2 RangeProofs3 BigInt BigSpec BigNum BigPrims BigOps BigSel BigCmp BigSub BigCarry BigMod BigCrtNum BigCrt
  FpChip FpProofs FpProofs2 FpProofs3 FpField FpField2 FpField3 Bn254Primes PropsBigInt PropsFp EcGroup EccFacts SafeTypes Ecc EccProofs EccProofs2 EccProofs3 PropsEcc EcComb SafeProofs2 MsmProofs MsmProofs2.
Import ListNotations.
Local Open Scope Z_scope.

(** [t_1 * g_1 + ... + t_l * g_l] in the group is [EcComb.msum]. *)
Section MsmSpec.
Context {p : positive} (m : positive) (n : nat) (b : F m).
(** Under the cell values [e], [P] holds the group element [g]: a finite point of the curve, or (0, 0) for the identity. *)
Definition enc (e : env (p:=p)) (P : ecpt p) (g : pt m) : Prop :=
  match g with None => at_pt m n e P F0 F0 | Some (x, y) => at_pt m n e P x y /\ onc2 m b x y end.
(** the code takes y = 0 to mean infinity ("the only point on curve with y-coordinate equal to 0 is identity point") *)
Definition y_nonzero (g : pt m) : Prop := match g with None => True | Some (_, y) => y <> F0 end.
(** [t] is an integer of at most [max_bits] bits that the native field cannot tell from the cell [s] *)
Definition rep (max_bits : nat) (e : env (p:=p)) (s : AV p) (t : Z) : Prop := 0 <= t < 2 ^ Z.of_nat max_bits /\ of_Z p t = e s.
End MsmSpec.

Section Msm.
Context (p m : positive) (lb : nat) (Hp : prime (Z.pos p)) (Hlb : (1 <= lb < 64)%nat) (Hlb2 : (2 * lb <= CAPACITY p)%nat) (Hm : prime (Z.pos m)) (H3 : 3 < Z.pos m).
Context (n k : nat) (ch : fpchip p) (HN : fpchip_new m n k = Some ch) (HK : fp_params (p:=p) lb m n k).
Notation M2 := (2 ^ Z.of_nat (bits (Z.pos m))).
Context (HE1 : (Nat.max (log2_ceil (Z.of_nat k) + 2 * n + 5) (2 * n + bit_length (Z.of_nat k)) + lb + 2 <= CAPACITY p)%nat)
  (HE2 : 64 * (M2 * M2) < 2 ^ Z.of_nat (n * k + NUM_BITS p)).
Context (b : F m) (Hb : b <> F0).
Notation ecpt := (ecpt p).
Notation at_pt := (at_pt (p:=p) m n).
Notation at_cmp := (at_cmp (p:=p) m n).
Notation shape := (shape (p:=p) n k).
Notation onc2 := (onc2 m b).
Notation onc := (onc m b).
Notation eadd := (eadd m).
Notation eneg := (eneg m).
Notation lcf := (lcf m).
Notation pt := (pt m).
Notation sound := (sound lb).
Let Hm1 : 1 < Z.pos m. Proof. lia. Qed.


Notation enc := (enc (p:=p) m n b).
Notation gat := (gat p m n).
Notation table := (table p m n).
Notation msum := (msum m).

Theorem C58_msm_sound : forall (ax ay rx ry : F m) (Ps : list ecpt) (scalars : list (list (AV p))) (max_bits window_bits : nat),
  Forall shape Ps -> Forall (fun s => length s = length (hd [] scalars)) scalars ->
  sound (multi_scalar_multiply lb m ch b ax ay rx ry Ps scalars max_bits window_bits) shape
    (fun sg R => forall gs, Forall2 (enc (avs sg)) Ps gs -> Forall (y_nonzero m) gs ->
       exists ts, Forall2 (Forall2 (rep max_bits (avs sg))) scalars ts /\ enc (avs sg) R (msum (combine (map (undigits max_bits) ts) gs))).
Proof.
  intros ax ay rx ry Ps scalars mb w KPs HLs. unfold multi_scalar_multiply. cbv zeta. set (kk := length Ps).
  apply sound_assert_bind. intros E1. apply Nat.eqb_eq in E1. apply sound_assert_bind. intros E2. apply negb_true_iff, Nat.eqb_neq in E2.
  apply sound_lift_bind. intros s0 Es0. apply sound_assert_bind. intros E3. apply negb_true_iff, Nat.eqb_neq in E3.
  apply sound_assert_bind. intros E4. apply sound_assert_bind. intros E5. apply negb_true_iff, Nat.eqb_neq in E5.
  set (tb := (mb * length s0)%nat). set (nw := ((tb + w - 1) / w)%nat). set (rb := (nw * w)%nat).
  assert (Hrb : (tb <= rb)%nat).
  { unfold rb, nw. pose proof (Nat.div_mod (tb + w - 1) w E5). pose proof (Nat.mod_upper_bound (tb + w - 1) w E5). clear - H H0 E5. nia. }
  assert (Hs0 : hd [] scalars = s0) by (destruct scalars; [discriminate|now injection Es0]). rewrite Hs0 in HLs.
  eapply sound_bind; [apply (sound_load_zero lb)|]. intros zero _. unfold msm_bits. apply (sound_assoc' p lb).
  eapply sound_bind.
  { apply (sound_mapM lb _ (fun scalar bl => length bl = (mb * length scalar + (rb - tb))%nat /\ (scalar <> [] -> 0 < mb)%nat)
      (fun sg scalar bl => avs sg zero = F0 -> exists bs ts, binds p sg bl bs /\ Forall2 (chunk_of p mb sg) scalar ts /\ zb bs = undigits mb ts)).
    intros s _. apply (g_scalar_bits p m lb Hp Hlb Hlb2 n k HE1 HE2). }
  cbv beta. intros bitss HBits.
  assert (Lbits : length bitss = kk) by (rewrite <- (Forall2_len _ _ _ HBits); symmetry; exact E1).
  assert (Hmb : (0 < mb)%nat).
  { destruct (Forall2_nth_l _ _ _ HBits 0 s0 Es0) as (bl & _ & _ & H). apply H. destruct s0; [cbn in E3; congruence|discriminate]. }
  assert (Htb : (0 < tb)%nat) by (unfold tb; nia).
  assert (HBl : Forall (fun bl => length bl = rb) bitss).
  { clear - HBits HLs Hrb. revert HLs. induction HBits as [|s bl ss bls [E _] _ IH]; intros HF; constructor; inversion HF as [|? ? Es HF']; subst; auto. rewrite E, Es. fold tb. lia. }
  match goal with |- Logic.sound _ (bind (ret ?x) ?g) ?P ?Q => change (Logic.sound lb (g x) P Q) end. cbv beta.
  eapply sound_bind; [apply (proj1 (proj2 (C55_load_private p m lb Hp Hlb Hlb2 H3 n k ch HN HK HE1 HE2 b ax ay)))|]. intros A0 KA.
  eapply sound_bind; [apply (g_chain p m lb Hp Hlb Hlb2 Hm H3 n k ch HN HK HE1 HE2 b Hb (kk + w - 1) A0 KA)|]. cbv beta. intros rest [Lrest Krest].
  eapply sound_bind.
  { apply (sound_mapM lb _ (fun _ ds => length ds = (2 ^ w)%nat /\ Forall shape ds)
      (fun sg ip ds => forall Bs c1 c2 i g r1 r2, Forall onc Bs -> nth_error Bs i = Some g -> pin p m n (avs sg) (snd ip) g ->
       nth_error (A0 :: rest) (fst ip) = Some r1 -> nth_error (A0 :: rest) (fst ip + w) = Some r2 -> gat Bs (avs sg) r1 c1 -> gat Bs (avs sg) r2 c2 ->
       table Bs (avs sg) ds (fun j => c1 j + - c2 j) i)).
    intros [i P] Hin. apply in_combine_r in Hin. rewrite Forall_forall in KPs. cbn [fst snd].
    apply (g_cache_point p m lb Hp Hlb Hlb2 Hm H3 n k ch HN HK HE1 HE2 b Hb); auto. }
  cbv beta. intros caches HCs.
  assert (Lc : length caches = kk). { rewrite <- (Forall2_len _ _ _ HCs), combine_length, seq_length. unfold kk. lia. }
  assert (KCs : Forall (fun tab => Forall shape tab /\ length tab = (2 ^ w)%nat) caches).
  { clear - HCs. induction HCs as [|? ? ? ? [A B] _ IH]; constructor; auto. }
  apply sound_lift_bind. intros rk Erk. apply sound_lift_bind. intros r0 Er0.
  assert (KRsv : Forall shape (A0 :: rest)) by (constructor; auto). pose proof (proj1 (Forall_forall _ _) KRsv) as KRsv'.
  eapply sound_bind; [apply (g_sub p m lb Hp Hlb Hlb2 Hm H3 n k ch HN HK HE1 HE2 b Hb rk r0); apply KRsv'; eapply nth_error_In; eassumption|]. intros start Kst.
  eapply sound_bind; [apply (g_rounds p m lb Hp Hlb Hlb2 Hm H3 n k ch HN HK HE1 HE2 b Hb w rb caches bitss ltac:(lia) ltac:(lia) KCs HBl nw 0 start Kst)|].
  { unfold rb. lia. } intros cur Kcur.
  eapply sound_weaken; [apply (C56_sub_strict_sound p m lb Hp Hlb Hlb2 Hm H3 n k ch HN HK HE1 HE2 b rx ry cur start Kcur Kst)|auto|cbv beta].
  intros sg R _ HSub HRounds HStart HCache HChain (xa & ya & AA & OA) HBitsQ Hzero gs Hgs Hy.
  pose (Bs := Some (xa, ya) :: gs).
  assert (HB : Forall onc Bs).
  { constructor; [exact OA|]. clear - Hgs. induction Hgs as [|P g Ps gs HP _ IH]; constructor; auto. destruct g as [[x y]|]; [exact (proj2 HP)|exact I]. }
  (* the random multiples *)
  assert (HR : forall i r, nth_error (A0 :: rest) i = Some r -> gat Bs (avs sg) r (fun j => 2 ^ Z.of_nat i * unit_at 0 j)).
  { assert (G0 : gat Bs (avs sg) A0 (unit_at 0)) by (exists xa, ya; split; [exact AA|]; now apply (lcf_unit m Bs 0)).
    intros [|i] r E; [injection E as <-; eapply gat_ext; [|exact G0]; intros j B _; right; change (2 ^ Z.of_nat 0) with 1; lia|].
    exact (HChain Bs _ HB G0 i r E). }
  (* the bits *)
  assert (GB : exists bss ts, Forall2 (binds p sg) bitss bss /\ Forall2 (Forall2 (chunk_of p mb sg)) scalars ts /\ map zb bss = map (undigits mb) ts).
  { clear - HBitsQ Hzero. induction HBitsQ as [|s bl ss bls H _ (bss & ts & I1 & I2 & I3)]; [exists [], []; repeat split; constructor|].
    destruct (H Hzero) as (bs & t & H1 & H2 & H4'). exists (bs :: bss), (t :: ts). split; [|split]; [now constructor|now constructor|]. cbn. now rewrite I3, H4'. }
  destruct GB as (bss & ts & GB1 & GB2 & GB3). exists ts. split; [exact GB2|].
  (* the tables *)
  assert (HT : forall i tab, nth_error caches i = Some tab -> table Bs (avs sg) tab (base_c w i) (S i)).
  { intros i tab Et. assert (Hi : (i < kk)%nat) by (rewrite <- Lc; apply nth_error_Some; congruence).
    destruct (nth_error Ps i) as [P|] eqn:EP; [|apply nth_error_None in EP; unfold kk in Hi; lia].
    assert (Hin : nth_error (combine (seq 0 kk) Ps) i = Some (i, P)).
    { clear - EP Hi. unfold kk. enough (G : forall l a i, nth_error l i = Some P -> nth_error (combine (seq a (length l)) l) i = Some ((a + i)%nat, P)) by exact (G Ps 0%nat i EP).
      induction l as [|q l IH]; intros a [|j] E; try discriminate; cbn in *; [injection E as <-; rewrite Nat.add_0_r; reflexivity|]. rewrite (IH (S a) j E). f_equal. f_equal. lia. }
    destruct (Forall2_nth_l _ _ _ HCache i (i, P) Hin) as (tab' & Et' & HCi). rewrite Et in Et'. injection Et' as <-. cbn [fst snd] in HCi.
    destruct (Forall2_nth_l _ _ _ Hgs i P EP) as (g & Eg & Hg).
    destruct (nth_error (A0 :: rest) i) as [r1|] eqn:Er1; [|apply nth_error_None in Er1; cbn in Er1; lia].
    destruct (nth_error (A0 :: rest) (i + w)) as [r2|] eqn:Er2; [|apply nth_error_None in Er2; cbn in Er2; lia].
    assert (PIN : pin p m n (avs sg) P g).
    { assert (Hy' : y_nonzero m g) by (rewrite Forall_forall in Hy; apply Hy; eapply nth_error_In; exact Eg). destruct g as [[x y]|]; [exact (conj (proj1 Hg) Hy')|exact Hg]. }
    pose proof (HCi Bs _ _ (S i) g r1 r2 HB Eg PIN eq_refl eq_refl (HR _ _ Er1) (HR _ _ Er2)) as HTab.
    intros d D ED. eapply gat_ext; [|exact (HTab d D ED)]. intros j B _. right. cbv beta. destruct j as [|j]; cbn [base_c unit_at Nat.eqb]; unfold unit_at; cbn [Nat.eqb]; ring. }
  pose proof (HStart Bs _ _ HB (HR _ _ Erk) (HR _ _ Er0)) as GS.
  assert (LBs : Forall (fun bs => length bs = rb) bss).
  { clear - HBl GB1. revert HBl. induction GB1 as [|x y l l' Hxy _ IH]; intros HF; constructor; inversion HF as [|? ? E0 HF']; subst; auto. rewrite <- E0. symmetry. eapply binds_len; eauto. }
  assert (GS' : gat Bs (avs sg) start (acc_c w rb (length caches) 0 bss)).
  { eapply gat_ext; [|exact GS]. intros j B _. right. cbv beta. rewrite Lc. destruct j as [|j]; unfold acc_c, unit_at; cbn [Nat.eqb].
    - change (2 ^ Z.of_nat 0) with 1. lia.
    - rewrite Nat.mul_0_r, Nat.sub_0_r. destruct (Nat.lt_ge_cases j (length bss)) as [Hj|Hj].
      + rewrite Forall_forall in LBs. rewrite <- (LBs (nth j bss []) (nth_In _ _ Hj)), skipn_all. change (zb []) with 0. lia.
      + rewrite nth_overflow, skipn_nil by lia. change (zb []) with 0. lia. }
  destruct (HRounds Bs bss HB GS' HT GB1) as (x1 & y1 & A1 & F1'). destruct GS as (x2 & y2 & A2 & F2').
  pose proof (lcf_onc m Hm H3 b Bs HB (acc_c w rb (length caches) (0 + nw) bss)) as O1. rewrite F1' in O1.
  pose proof (lcf_onc m Hm H3 b Bs HB (fun j => 2 ^ Z.of_nat kk * unit_at 0 j + - (2 ^ Z.of_nat 0 * unit_at 0 j))) as O2. rewrite F2' in O2.
  specialize (HSub x1 y1 x2 y2 A1 A2 O1 O2).
  assert (EQ : eadd (Some (x1, y1)) (eneg (Some (x2, y2))) = msum (combine (map (undigits mb) ts) gs)).
  { rewrite <- F1', <- F2', <- (lcf_opp m Hm H3 b Hb Bs HB), <- (lcf_add m Hm H3 b Hb Bs HB).
    rewrite <- GB3. unfold Bs. cbn [EcComb.lcf].
    match goal with |- EcGroup.eadd m (zmul m ?z _) _ = _ => replace z with 0 end.
    2:{ unfold acc_c, unit_at. cbn [Nat.eqb]. rewrite Lc. change (2 ^ Z.of_nat 0) with 1. ring. }
    change (zmul m 0 (Some (xa, ya))) with (@None (F m * F m)). cbn [EcGroup.eadd].
    assert (LG : length bss = length gs). { rewrite <- (Forall2_len _ _ _ GB1), <- (Forall2_len _ _ _ Hgs). exact Lbits. }
    apply (lcf_msum m). { now rewrite map_length. }
    intros i Hi. assert (Hi' : (i < length bss)%nat) by lia. rewrite (nth_indep (map zb bss) 0 (zb [])) by (rewrite map_length; exact Hi'). rewrite map_nth.
    split; [|exact (proj1 (zb_bound _))]. unfold acc_c, unit_at. cbn [Nat.eqb]. replace (rb - w * (0 + nw))%nat with 0%nat by (unfold rb; lia). cbn [skipn]. ring. }
  rewrite EQ in HSub. pose proof (eadd_onc m Hm H3 b (Some (x1, y1)) (eneg (Some (x2, y2))) O1 (eneg_onc m Hm b (Some (x2, y2)) O2)) as O3. rewrite EQ in O3.
  destruct (msum _) as [[x3 y3]|]; [split; [exact (proj2 HSub)|exact O3]|exact HSub].
Qed.

(** scalars of at most [CAPACITY] bits per limb: the multiple is determined, and out-of-range limbs are refused *)
Theorem C58_msm_exact : forall (ax ay rx ry : F m) (Ps : list ecpt) (scalars : list (list (AV p))) (max_bits window_bits : nat),
  Forall shape Ps -> Forall (fun s => length s = length (hd [] scalars)) scalars -> 2 ^ Z.of_nat max_bits <= Z.pos p ->
  sound (multi_scalar_multiply lb m ch b ax ay rx ry Ps scalars max_bits window_bits) shape
    (fun sg R => forall gs, Forall2 (enc (avs sg)) Ps gs -> Forall (y_nonzero m) gs ->
       Forall (Forall (fun s => val (avs sg s) < 2 ^ Z.of_nat max_bits)) scalars /\
       enc (avs sg) R (msum (combine (map (fun s => undigits max_bits (map (fun c => val (avs sg c)) s)) scalars) gs))).
Proof.
  intros ax ay rx ry Ps scalars mb w KPs HLs Hle.
  eapply sound_weaken; [apply (C58_msm_sound ax ay rx ry Ps scalars mb w KPs HLs)|auto|cbv beta]. intros sg R _ H gs Hgs Hy.
  destruct (H gs Hgs Hy) as (ts & H2 & HR).
  assert (G1 : forall s t, rep mb (avs sg) s t -> val (avs sg s) = t).
  { intros s t [B E]. rewrite <- E. apply val_of_Z_small. lia. }
  assert (G : Forall (Forall (fun s => val (avs sg s) < 2 ^ Z.of_nat mb)) scalars /\ map (fun s => undigits mb (map (fun c => val (avs sg c)) s)) scalars = map (undigits mb) ts).
  { clear - H2 G1. induction H2 as [|s t ss ts H _ [I1 I2]]; [split; [constructor|reflexivity]|].
    assert (K : Forall (fun s => val (avs sg s) < 2 ^ Z.of_nat mb) s /\ map (fun c => val (avs sg c)) s = t).
    { clear - H G1. induction H as [|c z s t Hc _ [I1 I2]]; [split; [constructor|reflexivity]|]. pose proof (G1 c z Hc) as E. destruct Hc as [B _].
      split; [constructor; [rewrite E; apply B|exact I1]|]. cbn [map]. rewrite E, I2. reflexivity. }
    destruct K as [K1 K2]. split; [constructor; auto|]. cbn [map]. rewrite K2, I2. reflexivity. }
  destruct G as [G2 G3]. split; [exact G2|]. rewrite G3. exact HR.
Qed.
(** full-width single-limb scalars are exact when the native modulus annihilates the points (the documented assumption) *)
Lemma emul_cong t v g : onc g -> emul m (Pos.to_nat p) g = None -> 0 <= t -> of_Z p t = v -> emul m (Z.to_nat t) g = emul m (Z.to_nat (val v)) g.
Proof.
  intros O Ep Ht <-. rewrite val_of_Z. rewrite (Z.div_mod t (Z.pos p)) at 1 by lia. pose proof (Z.mod_pos_bound t (Z.pos p) ltac:(lia)) as Bm.
  pose proof (Z.div_pos t (Z.pos p) Ht ltac:(lia)) as Bd. rewrite Z2Nat.inj_add by nia. rewrite (Z.mul_comm (Z.pos p)), Z2Nat.inj_mul by lia.
  change (Z.to_nat (Z.pos p)) with (Pos.to_nat p). rewrite (emul_add m Hm H3 b Hb) by exact O. rewrite (emul_mul m Hm H3 b Hb) by exact O. rewrite Ep.
  rewrite (emul_none m). reflexivity.
Qed.
Theorem C58_msm_full_width : forall (ax ay rx ry : F m) (Ps : list ecpt) (scalars : list (AV p)) (max_bits window_bits : nat),
  Forall shape Ps ->
  sound (multi_scalar_multiply lb m ch b ax ay rx ry Ps (map (fun s => [s]) scalars) max_bits window_bits) shape
    (fun sg R => forall gs, Forall2 (enc (avs sg)) Ps gs -> Forall (y_nonzero m) gs -> Forall (fun g => emul m (Pos.to_nat p) g = None) gs ->
       enc (avs sg) R (msum (combine (map (fun s => val (avs sg s)) scalars) gs))).
Proof.
  intros ax ay rx ry Ps scalars mb w KPs.
  assert (HLs : Forall (fun s : list (AV p) => length s = length (hd [] (map (fun s => [s]) scalars))) (map (fun s => [s]) scalars)).
  { apply Forall_forall. intros s Hin. destruct scalars as [|s0 ss]; [destruct Hin|]. cbn [map hd length]. apply in_map_iff in Hin as (? & <- & _). reflexivity. }
  eapply sound_weaken; [apply (C58_msm_sound ax ay rx ry Ps (map (fun s => [s]) scalars) mb w KPs HLs)|auto|cbv beta]. intros sg R _ H gs Hgs Hy HO.
  destruct (H gs Hgs Hy) as (ts & H2 & HR).
  assert (E : msum (combine (map (undigits mb) ts) gs) = msum (combine (map (fun s => val (avs sg s)) scalars) gs)).
  { assert (On : Forall onc gs). { clear - Hgs. induction Hgs as [|P g Ps gs HP _ IH]; constructor; auto. destruct g as [[x y]|]; [exact (proj2 HP)|exact I]. }
    clear H HR Hgs Hy HLs KPs. revert gs HO On ts H2. induction scalars as [|s ss IH]; intros gs HO On ts H2; inversion H2 as [|? t ? ts' Ht H2']; subst; [reflexivity|].
    destruct gs as [|g gs]; [reflexivity|]. inversion HO; inversion On; subst. cbn [map combine EcComb.msum]. f_equal; [|apply IH; auto].
    inversion Ht as [|? z ? ? [B Ez] Ht']; subst. inversion Ht'; subst. cbn [undigits]. rewrite Z.mul_0_r, Z.add_0_r. apply emul_cong; auto. lia. }
  rewrite <- E. exact HR.
Qed.
Theorem C58_scalar_multiply : forall (ax ay rx ry : F m) (P : ecpt) (scalar : list (AV p)) (max_bits window_bits : nat), shape P ->
  sound (scalar_multiply lb m ch b ax ay rx ry P scalar max_bits window_bits) shape
    (fun sg R => forall g, enc (avs sg) P g -> y_nonzero m g ->
       exists ts, Forall2 (rep max_bits (avs sg)) scalar ts /\ enc (avs sg) R (emul m (Z.to_nat (undigits max_bits ts)) g)) /\
  (2 ^ Z.of_nat max_bits <= Z.pos p ->
   sound (scalar_multiply lb m ch b ax ay rx ry P scalar max_bits window_bits) shape
    (fun sg R => forall g, enc (avs sg) P g -> y_nonzero m g ->
       enc (avs sg) R (emul m (Z.to_nat (undigits max_bits (map (fun c => val (avs sg c)) scalar))) g))).
Proof.
  intros ax ay rx ry P scalar mb w KP. assert (KPs : Forall shape [P]) by (constructor; auto).
  assert (HLs : Forall (fun s : list (AV p) => length s = length (hd [] [scalar])) [scalar]) by (constructor; auto).
  split.
  - unfold scalar_multiply. do 3 (apply sound_assert_bind; intros _).
    eapply sound_weaken; [apply (C58_msm_sound ax ay rx ry [P] [scalar] mb w KPs HLs)|auto|cbv beta]. intros sg R _ H g Hg Hy.
    destruct (H [g]) as (ts & H2 & HR); [constructor; auto|constructor; auto|]. inversion H2 as [|? t ? ts' Ht H2']; subst. inversion H2'; subst.
    exists t. split; auto. cbn [map combine EcComb.msum] in HR. now rewrite (eadd_0_r m) in HR.
  - intros Hle. unfold scalar_multiply. do 3 (apply sound_assert_bind; intros _).
    eapply sound_weaken; [apply (C58_msm_exact ax ay rx ry [P] [scalar] mb w KPs HLs Hle)|auto|cbv beta]. intros sg R _ H g Hg Hy.
    destruct (H [g]) as [_ HR]; [constructor; auto|constructor; auto|]. cbn [map combine EcComb.msum] in HR. now rewrite (eadd_0_r m) in HR.
Qed.

(** ** C59: [sum] of finite points. The final strict subtraction makes the sum finite as well: no satisfying assignment
    exists when the points add up to the identity. *)
Definition psum (gs : list pt) : pt := fold_right eadd None gs.
Lemma psum_onc gs : Forall onc gs -> onc (psum gs).
Proof. induction 1; cbn; [exact I|]. now apply (eadd_onc m Hm H3 b). Qed.
Lemma sum_step P acc : shape P -> shape acc ->
  sound (bind (ec_add_unequal lb m ch (Strict acc) (NonStrict P) true) (into_strict_point lb ch)) shape
    (fun sg R => forall x y u v, at_pt (avs sg) acc x y -> canonical m n (avs sg) (px acc) x -> at_pt (avs sg) P u v ->
       exists x' y', at_pt (avs sg) R x' y' /\ canonical m n (avs sg) (px R) x' /\ eadd (Some (x, y)) (Some (u, v)) = Some (x', y')).
Proof.
  intros KP Ka. eapply sound_bind; [apply (C54_add_unequal_sound p m lb Hp Hlb Hlb2 Hm H3 n k ch HN HK HE1 HE2 (Strict acc) (NonStrict P) true Ka KP)|]. intros a Kaa.
  eapply sound_weaken; [apply (g_strict p m lb Hp Hlb Hlb2 H3 n k ch HN HK HE1 HE2 a Kaa)|auto|]. cbv beta. intros sg R _ HS HA x y u v A C B.
  destruct (HA x y u v (conj A C) B ltac:(discriminate)) as (_ & x' & y' & A' & E). destruct (HS x' y' A') as [S1 S2]. exists x', y'. auto.
Qed.
Lemma sum_fold : forall (points : list ecpt) acc, Forall shape points -> shape acc ->
  sound (foldM (fun acc point => bind (ec_add_unequal lb m ch (Strict acc) (NonStrict point) true) (into_strict_point lb ch)) points acc) shape
    (fun sg R => forall gs x y, at_pt (avs sg) acc x y -> canonical m n (avs sg) (px acc) x -> onc2 x y ->
       Forall2 (fun P g => exists u v, g = Some (u, v) /\ at_pt (avs sg) P u v /\ onc2 u v) points gs ->
       exists x' y', at_pt (avs sg) R x' y' /\ canonical m n (avs sg) (px R) x' /\ eadd (Some (x, y)) (psum gs) = Some (x', y')).
Proof.
  induction points as [|P points IH]; intros acc KPs Ka; cbn [foldM].
  - apply sound_ret; auto. intros sg gs x y A C O H2. inversion H2; subst. exists x, y. auto.
  - inversion KPs as [|? ? KP KPs']; subst. eapply sound_bind; [apply (sum_step P acc KP Ka)|].
    cbv beta. intros a2 Ka2. eapply sound_weaken; [apply (IH a2 KPs' Ka2)|auto|cbv beta].
    intros sg R _ HR HA gs x y A C O H2. inversion H2 as [|? g1 ? gs' (u & v & Eg & AP & OP) H2']; subst.
    destruct (HA x y u v A C AP) as (x1 & y1 & A1 & C1 & E1).
    pose proof (eadd_onc m Hm H3 b (Some (x, y)) (Some (u, v)) O OP) as O1. rewrite E1 in O1.
    destruct (HR gs' x1 y1 A1 C1 O1 H2') as (x' & y' & A' & C' & E'). exists x', y'. split; auto. split; auto.
    assert (On : Forall onc gs'). { clear - H2'. induction H2' as [|P g Ps gs (u & v & -> & _ & O) _ IH]; constructor; auto. }
    cbn [psum fold_right]. change (fold_right (EcGroup.eadd m) None gs') with (psum gs').
    rewrite <- (eadd_assoc m Hm H3 b Hb (Some (x, y)) (Some (u, v)) (psum gs') O OP (psum_onc gs' On)). rewrite E1. exact E'.
Qed.
Theorem C59_sum_sound : forall (ax ay : F m) (points : list ecpt), Forall shape points ->
  sound (ecc_sum lb m ch b ax ay points) shape
    (fun sg R => forall gs, Forall2 (fun P g => exists u v, g = Some (u, v) /\ at_pt (avs sg) P u v /\ onc2 u v) points gs ->
       exists x y, at_pt (avs sg) R x y /\ psum gs = Some (x, y)).
Proof.
  intros ax ay points KPs. unfold ecc_sum.
  eapply sound_bind; [apply (proj1 (proj2 (C55_load_private p m lb Hp Hlb Hlb2 H3 n k ch HN HK HE1 HE2 b ax ay)))|]. intros A0 KA.
  eapply sound_bind; [apply (g_strict p m lb Hp Hlb Hlb2 H3 n k ch HN HK HE1 HE2 A0 KA)|]. intros A1 KA1.
  eapply sound_bind; [apply (sum_fold points A1 KPs KA1)|]. intros acc Kacc.
  eapply sound_weaken; [apply (C54_sub_unequal_sound p m lb Hp Hlb Hlb2 Hm H3 n k ch HN HK HE1 HE2 (Strict acc) (Strict A1) true Kacc KA1)|auto|cbv beta].
  intros sg R _ HS HF HT (xa & ya & AA & OA) gs H2. destruct (HT xa ya AA) as [T1 T2]. destruct (HF gs xa ya T1 T2 OA H2) as (x1 & y1 & A1' & C1 & E1).
  destruct (HS x1 y1 xa ya (conj A1' C1) (conj T1 T2) ltac:(discriminate)) as (_ & x3 & y3 & A3 & E3). exists x3, y3. split; auto.
  assert (On : Forall onc gs). { clear - H2. induction H2 as [|P g Ps gs (u & v & -> & _ & O) _ IH]; constructor; auto. }
  rewrite <- E3, <- E1. pose proof (psum_onc gs On) as OS. pose (g0 := Some (xa, ya) : pt). assert (O0 : onc g0) by exact OA.
  change (psum gs = eadd (eadd g0 (psum gs)) (eneg g0)). rewrite (eadd_comm m Hm H3 b g0 (psum gs) O0 OS).
  rewrite (eadd_assoc m Hm H3 b Hb _ _ _ OS O0 (eneg_onc m Hm b _ O0)), (eadd_neg_r m Hm). symmetry. apply (eadd_0_r m).
Qed.
End Msm.

(** ** BN254: a circuit over [r] that multiplies G1's generator (1, 2) by a 253-bit witness computes exactly that multiple *)
Section Instance.
Local Open Scope monad_scope.
Notation lb := 17%nat.
Notation n := 88%nat.
Notation k := 3%nat.
Notation q := bn_q.
Example C58_example : forall ch ax ay rx ry (v : F bn_r), fpchip_new (p:=bn_r) bn_q n k = Some ch ->
  Logic.sound lb
    (G <- ecc_assign_constant_point q ch (of_Z q 1) (of_Z q 2) ;;
     s <- load_witness v ;;
     R <- scalar_multiply lb q ch bn_b ax ay rx ry G [s] 253 4 ;; ret (s, R))
    (fun _ => True) (fun sg sR => enc q n bn_b (avs sg) (snd sR) (emul q (Z.to_nat (val (avs sg (fst sR)))) (Some (of_Z q 1, of_Z q 2)))).
Proof.
  intros ch ax ay rx ry v HN. pose proof bn254_r_prime as Hp. pose proof bn254_q_prime as Hq. pose proof bn_fp_params as HK.
  eapply sound_bind; [apply (proj1 (proj2 (proj2 (C55_assign_point bn_r q lb Hp bn_lb bn_2lb bn_lt3 n k ch HN HK bn_he1 bn_he2 bn_b (of_Z q 1) (of_Z q 2)))))|]. intros G KG.
  eapply sound_bind; [apply sound_load_witness|]. intros s _.
  eapply sound_bind.
  { apply (proj2 (C58_scalar_multiply bn_r q lb Hp bn_lb bn_2lb Hq bn_lt3 n k ch HN HK bn_he1 bn_he2 bn_b bn_b_nz ax ay rx ry G [s] 253 4 KG)).
    vm_compute. discriminate. }
  cbv beta. intros R _. apply sound_ret; [exact I|]. cbn [fst snd map]. intros sg H _ AG.
  specialize (H (Some (of_Z q 1, of_Z q 2)) (conj AG bn_gen_on_curve)). cbn [undigits] in H. rewrite Z.mul_0_r, Z.add_0_r in H. apply H.
  apply of_Z_nz. vm_compute. split; reflexivity.
Qed.
End Instance.
