(** Property theorem C60: fixed-base scalar multiplication (halo2-ecc/src/ecc/fixed_base.rs). Reading guide: PropsMsm.v. *)
From Coq Require Import ZArith Znumtheory Lia List Bool Ring.
From Verif Require Import Field Spec Context ContextProofs Utils Logic Gate GateProofs ChainProofs IPProofs BitProofs PowProofs IPComp Derived Calc CalcH
  Range RangeProofs RangeProofs2 RangeProofs3 BigInt BigSpec BigNum BigPrims BigOps BigSel BigCmp BigSub BigCarry BigMod BigCrtNum BigCrt
  FpChip FpProofs FpProofs2 FpProofs3 FpField FpField2 FpField3 Bn254Primes PropsBigInt PropsFp EcGroup EccFacts SafeTypes Ecc EccProofs EccProofs2 EccProofs3 PropsEcc EcComb SafeProofs2 MsmProofs MsmProofs2 PropsMsm FixedBase FixedProofs.
Import ListNotations.
Local Open Scope Z_scope.

Section Fixed.
Context (p m : positive) (lb : nat) (Hp : prime (Z.pos p)) (Hlb : (1 <= lb < 64)%nat) (Hlb2 : (2 * lb <= CAPACITY p)%nat) (Hm : prime (Z.pos m)) (H3 : 3 < Z.pos m).
Context (n k : nat) (ch : fpchip p) (HN : fpchip_new m n k = Some ch) (HK : fp_params (p:=p) lb m n k).
Notation M2 := (2 ^ Z.of_nat (bits (Z.pos m))).
Context (HE1 : (Nat.max (log2_ceil (Z.of_nat k) + 2 * n + 5) (2 * n + bit_length (Z.of_nat k)) + lb + 2 <= CAPACITY p)%nat)
  (HE2 : 64 * (M2 * M2) < 2 ^ Z.of_nat (n * k + NUM_BITS p)).
Context (b : F m) (Hb : b <> F0).
Notation ecpt := (ecpt p).
Notation at_pt := (at_pt (p:=p) m n).
Notation at_cmp := (at_cmp (p:=p) m n).
Notation shape := (shape (p:=p) n k).
Notation onc2 := (onc2 m b).
Notation onc := (onc m b).
Notation eadd := (eadd m).
Notation eneg := (eneg m).
Notation lcf := (lcf m).
Notation pt := (pt m).
Notation sound := (sound lb).
Let Hm1 : 1 < Z.pos m. Proof. lia. Qed.


Notation enc := (enc (p:=p) m n b).
Notation gat := (gat p m n).
Notation ftable := (ftable p m n).
Notation binds := (binds p).

(** No entry of the precomputed tables ([j * 2^(t*w) * g] for [0 < j < 2^w], [t] a window) is the identity. *)
Definition tables_finite (w nw : nat) (g : pt) : Prop := forall t j, (t < nw)%nat -> (0 < j < 2 ^ w)%nat -> emul m (j * 2 ^ (t * w)) g <> None.

Theorem C60_fixed_base_sound : forall (ax ay rx ry gx gy : F m) (scalar : list (AV p)) (max_bits window_bits : nat), onc2 gx gy ->
  tables_finite window_bits ((max_bits * length scalar + window_bits - 1) / window_bits) (Some (gx, gy)) -> Z.of_nat window_bits < Z.pos p ->
  sound (fixed_scalar_multiply lb m ch b ax ay rx ry (Some (gx, gy)) scalar max_bits window_bits) shape
    (fun sg R => exists ts, Forall2 (rep max_bits (avs sg)) scalar ts /\ enc (avs sg) R (emul m (Z.to_nat (undigits max_bits ts)) (Some (gx, gy)))).
Proof.
  intros ax ay rx ry gx gy scalar mb w Og' HT Hw. unfold fixed_scalar_multiply. set (g := Some (gx, gy) : pt) in *. assert (Og : onc g) by exact Og'. clearbody g. clear gx gy Og'.
  apply sound_assert_bind. intros E1. apply negb_true_iff, Nat.eqb_neq in E1. apply sound_assert_bind. intros _. cbv zeta.
  apply sound_assert_bind. intros E2. apply negb_true_iff, Nat.eqb_neq in E2.
  set (tb := (mb * length scalar)%nat) in *. set (nw := ((tb + w - 1) / w)%nat) in *. set (tabs := fb_tables m nw 0 w tb g).
  eapply sound_bind.
  { apply (sound_mapM lb _ (fun _ P => shape P) (fun sg g P => at_pt (avs sg) P (fst (coords m g)) (snd (coords m g)))).
    intros x _. apply (g_load_const_pt p m lb Hp Hlb Hlb2 H3 n k ch HN HK HE1 HE2 b). }
  cbv beta. intros cached HC1. eapply sound_bind.
  { apply (sound_mapM lb _ (fun _ o => length o = mb /\ (0 < mb)%nat) (fun sg s o => exists bs, binds sg o bs /\ chunk_of p mb sg s (zb bs))).
    intros s _. apply (g_num_to_bits p m lb Hp Hlb Hlb2 n k HE1 HE2). }
  cbv beta. intros bls HL.
  assert (Hmb : (0 < mb)%nat) by (destruct HL as [|? ? ? ? [_ H] _]; [cbn in E1; congruence|exact H]).
  assert (LB : length (concat bls) = tb).
  { unfold tb. clear - HL. induction HL as [|x y l l' [E _] _ IH]; cbn [concat length]; [lia|]. rewrite app_length, IH, E. lia. }
  assert (Htb : (0 < tb)%nat) by (unfold tb; nia).
  assert (Hdm : (tb + w - 1 = w * nw + (tb + w - 1) mod w)%nat) by (apply Nat.div_mod; exact E2).
  pose proof (Nat.mod_upper_bound (tb + w - 1) w E2) as Hmod.
  assert (Hnw : (0 < nw)%nat) by nia. assert (Hnw1 : (tb <= nw * w)%nat) by nia. assert (Hnw2 : ((nw - 1) * w < tb)%nat) by nia.
  (* tables *)
  pose proof (fb_tables_spec p m lb Hlb Hlb2 Hm H3 n k HE1 HE2 b Hb w tb g Og nw 0 eq_refl ltac:(lia)) as TS.
  replace (emul m (2 ^ (0 * w)) g) with g in TS by (cbn [Nat.mul Nat.pow EcGroup.emul]; symmetry; apply (eadd_0_r m)).
  fold tabs in TS. destruct TS as [LT TS]. cbn [Nat.add] in TS.
  assert (CT : chunks (2 ^ w) (concat tabs) = tabs).
  { destruct (exists_last (l:=tabs)) as (ini & lst & ET); [intros E; rewrite E in LT; cbn in LT; lia|]. rewrite ET.
    assert (Li : length ini = (nw - 1)%nat) by (rewrite ET, app_length in LT; cbn in LT; lia).
    apply chunks_uneven.
    - apply Forall_forall. intros x Hx. apply In_nth_error in Hx as [t Et]. assert (Ht : (t < length ini)%nat) by (apply nth_error_Some; congruence).
      destruct (TS t x) as [L _]; [rewrite ET, nth_error_app1 by exact Ht; exact Et|]. rewrite L. f_equal. apply Nat.min_l. nia.
    - destruct (TS (nw - 1)%nat lst) as [L _]; [rewrite ET, nth_error_app2, Li, Nat.sub_diag by lia; reflexivity|]. rewrite L.
      split; [pose proof (Nat.pow_nonzero 2 (Nat.min w (tb - (nw - 1) * w))); lia|]. apply Nat.pow_le_mono_r; lia. }
  assert (HCC : Forall2 (Forall2 (fun _ P => shape P)) tabs (chunks (2 ^ w) cached)) by (rewrite <- CT; now apply chunks_Forall2).
  assert (LCC : length (chunks (2 ^ w) cached) = nw) by (rewrite <- (Forall2_len _ _ _ HCC); exact LT).
  assert (LBB : length (chunks w (concat bls)) = nw) by (rewrite chunks_len, LB; reflexivity).
  assert (NB : forall A (l : list A) t, length l = tb -> (t < nw)%nat -> nth_error (chunks w l) t = Some (firstn w (skipn (t * w) l))).
  { intros A l t L Ht. unfold chunks. rewrite L. apply (nth_error_seq_map (fun i => firstn w (skipn (i * w) l)) 0 nw t Ht). }
  eapply sound_bind; [apply (proj1 (proj2 (C55_load_private p m lb Hp Hlb Hlb2 H3 n k ch HN HK HE1 HE2 b ax ay)))|]. intros A0 KA.
  rewrite combine_rev by lia.
  eapply sound_bind.
  { apply (g_fb_windows p m lb Hp Hlb Hlb2 Hm H3 n k ch HN HK HE1 HE2 b Hb (rev (combine (chunks (2 ^ w) cached) (chunks w (concat bls)))) A0 KA).
    apply Forall_rev. apply (Forall2_combine (fun tab bl => Forall shape tab /\ length tab = (2 ^ length bl)%nat /\ Z.of_nat (length bl) < Z.pos p)).
    apply Forall2_nth_intro; [lia|]. intros t tab bl ET EB.
    assert (Ht : (t < nw)%nat) by (rewrite <- LCC; apply nth_error_Some; congruence).
    rewrite NB in EB by auto. injection EB as <-. destruct (nth_error tabs t) as [tab0|] eqn:ET0; [|apply nth_error_None in ET0; lia].
    destruct (Forall2_nth_l _ _ _ HCC t tab0 ET0) as (tab' & ET' & F). rewrite ET in ET'. injection ET' as <-.
    destruct (TS t tab0 ET0) as [L0 _]. split; [clear - F; induction F; constructor; auto|].
    assert (Lw : length (firstn w (skipn (t * w) (concat bls))) = Nat.min w (tb - t * w)) by (rewrite firstn_length, skipn_length, LB; reflexivity).
    rewrite Lw. split; [rewrite <- L0; symmetry; exact (Forall2_len _ _ _ F)|lia]. }
  cbv beta. intros cur Kcur.
  eapply sound_weaken; [apply (C56_sub_strict_sound p m lb Hp Hlb Hlb2 Hm H3 n k ch HN HK HE1 HE2 b rx ry cur A0 Kcur KA)|auto|cbv beta].
  intros sg R _ HSub HF (xa & ya & AA & OA) HBits HCQ.
  assert (GB : exists bss, Forall2 (binds sg) bls bss /\ Forall2 (fun s bs => chunk_of p mb sg s (zb bs)) scalar bss).
  { clear - HBits. induction HBits as [|x y l l' (bs & B1 & B2) _ (bss & I1 & I2)]; [exists []; split; constructor|]. exists (bs :: bss). split; constructor; auto. }
  destruct GB as (bss & G1 & G2). set (bs := concat bss).
  assert (LBs : Forall (fun l => length l = mb) bss).
  { clear - HL G1. revert bss G1. induction HL as [|x y l l' [E _] _ IH]; intros bss G1; inversion G1; subst; constructor; auto. symmetry. eapply binds_len; eauto. }
  assert (Bbs : binds sg (concat bls) bs).
  { unfold MsmProofs2.binds, bs. rewrite !concat_map. f_equal. clear - G1. induction G1 as [|x y l l' E _ IH]; cbn; [reflexivity|]. now rewrite IH, E. }
  assert (Lbs : length bs = tb) by (rewrite <- LB; symmetry; eapply binds_len; eauto).
  exists (map zb bss). split.
  { clear - G2. induction G2; cbn; constructor; auto. }
  rewrite <- (zb_concat mb bss LBs). fold bs.
  pose (Bs := [Some (xa, ya); g] : list pt). assert (HB : Forall onc Bs) by (repeat constructor; [exact OA|exact Og]).
  assert (LG : forall v, lcf (fun j => v * unit_at 1 j) Bs = zmul m v g).
  { intros v. unfold Bs. cbn [EcComb.lcf]. unfold unit_at. cbn [Nat.eqb]. rewrite Z.mul_0_r, Z.mul_1_r. cbn [EcGroup.eadd zmul]. apply (eadd_0_r m). }
  assert (HCQ' : Forall2 (Forall2 (fun g P => at_pt (avs sg) P (fst (coords m g)) (snd (coords m g)))) tabs (chunks (2 ^ w) cached)) by (rewrite <- CT; now apply chunks_Forall2).
  pose (v := fun t => zb (firstn w (skipn (t * w) bs)) * 2 ^ Z.of_nat (t * w)).
  assert (GA : gat Bs (avs sg) A0 (unit_at 0)) by (exists xa, ya; split; [exact AA|]; now apply (lcf_unit m Bs 0)).
  specialize (HF Bs (unit_at 0) (rev (map v (seq 0 nw))) HB GA).
  assert (HV : Forall2 (fun cb v => exists u bs, ftable Bs (avs sg) (fst cb) u /\ binds sg (snd cb) bs /\ v = zb bs * u)
    (combine (chunks (2 ^ w) cached) (chunks w (concat bls))) (map v (seq 0 nw))).
  { apply Forall2_nth_intro; [rewrite combine_length, map_length, seq_length; lia|]. intros t [tab bl] vt EC EV.
    assert (Ht : (t < nw)%nat). { rewrite <- (seq_length nw 0), <- (map_length v (seq 0 nw)). apply nth_error_Some. congruence. }
    rewrite (nth_error_seq_map v 0 nw t Ht) in EV. injection EV as <-. cbn [Nat.add].
    assert (ECs : nth_error (chunks (2 ^ w) cached) t = Some tab /\ nth_error (chunks w (concat bls)) t = Some bl).
    { clear - EC. revert EC. generalize (chunks (2 ^ w) cached) as l1. generalize (chunks w (concat bls)) as l2. revert t.
      induction t as [|t IH]; intros [|y l2] [|x l1] E; try discriminate; cbn in E |- *; [injection E as <- <-; auto|exact (IH _ _ E)]. }
    destruct ECs as [ET EB]. rewrite (NB _ _ _ LB Ht) in EB. injection EB as <-. cbn [fst snd].
    exists (2 ^ Z.of_nat (t * w)), (firstn w (skipn (t * w) bs)). split; [|split; [|reflexivity]].
    - destruct (nth_error tabs t) as [tab0|] eqn:ET0; [|apply nth_error_None in ET0; lia].
      destruct (Forall2_nth_l _ _ _ HCQ' t tab0 ET0) as (tab' & ET' & F). rewrite ET in ET'. injection ET' as <-.
      destruct (TS t tab0 ET0) as [L0 T0]. intros d D ED.
      assert (Hd : (d < length tab0)%nat). { rewrite (Forall2_len _ _ _ F). apply nth_error_Some. congruence. }
      destruct (nth_error tab0 d) as [D0|] eqn:ED0; [|apply nth_error_None in ED0; lia].
      destruct (Forall2_nth_l _ _ _ F d D0 ED0) as (D' & ED' & AD). rewrite ED in ED'. injection ED' as <-.
      pose proof (T0 d D0 ED0) as EE. unfold fb_entry in EE.
      assert (Hj : (0 < (if Nat.eqb d 0 then 1 else d) < 2 ^ w)%nat).
      { assert (2 ^ Nat.min w (tb - t * w) <= 2 ^ w)%nat by (apply Nat.pow_le_mono_r; lia). assert (2 ^ 1 <= 2 ^ w)%nat by (apply Nat.pow_le_mono_r; lia). cbn in H0.
        destruct (Nat.eqb_spec d 0); lia. }
      pose proof (HT t _ Ht Hj) as NN. rewrite <- EE in NN. destruct D0 as [[x y]|]; [|congruence]. cbn [coords fst snd] in AD.
      exists x, y. split; [exact AD|]. rewrite LG. symmetry. rewrite EE. rewrite <- (zmul_nat m). f_equal.
      rewrite Nat2Z.inj_mul, Nat2Z.inj_pow. change (Z.of_nat 2) with 2. destruct (Nat.eqb_spec d 0); [|reflexivity]. change (Z.of_nat 1) with 1. apply Z.mul_1_l.
    - unfold MsmProofs2.binds. rewrite <- firstn_map, <- skipn_map. unfold MsmProofs2.binds in Bbs. rewrite Bbs. rewrite skipn_map, firstn_map. reflexivity. }
  specialize (HF (Forall2_rev' _ _ _ HV)). rewrite zsum_rev in HF.
  assert (EZ : zsum (map v (seq 0 nw)) = zb bs) by (symmetry; apply zb_windows; lia). rewrite EZ in HF.
  destruct HF as (x1 & y1 & A1 & F1').
  pose proof (lcf_onc m Hm H3 b Bs HB (fun j => unit_at 0 j + zb bs * unit_at 1 j)) as O1. rewrite F1' in O1.
  specialize (HSub x1 y1 xa ya A1 AA O1 OA).
  assert (EQ : eadd (Some (x1, y1)) (eneg (Some (xa, ya))) = emul m (Z.to_nat (zb bs)) g).
  { pose proof (zb_bound bs) as Bd. rewrite <- F1'. rewrite (lcf_add m Hm H3 b Hb Bs HB (unit_at 0) (fun j => zb bs * unit_at 1 j)), LG, (lcf_unit m Bs 0 (Some (xa, ya)) eq_refl).
    pose (a := Some (xa, ya) : pt). assert (Oa : onc a) by exact OA. fold a. pose proof (zmul_onc m Hm H3 b (zb bs) g Og) as Oz.
    rewrite (eadd_comm m Hm H3 b a _ Oa Oz). rewrite (eadd_assoc m Hm H3 b Hb _ _ _ Oz Oa (eneg_onc m Hm b _ Oa)), (eadd_neg_r m Hm), (eadd_0_r m).
    rewrite <- (Z2Nat.id (zb bs)) at 1 by lia. apply (zmul_nat m). }
  rewrite EQ in HSub. pose proof (eadd_onc m Hm H3 b (Some (x1, y1)) (eneg (Some (xa, ya))) O1 (eneg_onc m Hm b (Some (xa, ya)) OA)) as O3. rewrite EQ in O3.
  destruct (emul _ _ _) as [[x3 y3]|]; [split; [exact (proj2 HSub)|exact O3]|exact HSub].
Qed.
Theorem C60_fixed_base_identity : forall (ax ay rx ry : F m) (scalar : list (AV p)) (max_bits window_bits : nat),
  sound (fixed_scalar_multiply lb m ch b ax ay rx ry None scalar max_bits window_bits) shape (fun sg R => enc (avs sg) R None).
Proof.
  intros. unfold fixed_scalar_multiply. eapply sound_bind; [apply (proj2 (proj2 (C51_load_sound p m lb Hp Hlb Hlb2 Hm n k ch HN HK F0)))|]. cbv beta. intros z Kz.
  apply sound_ret; [split; exact Kz|]. intros sg Hz. assert (C : carried m n (avs sg) z F0).
  { exists (val (F0 : F m)). pose proof (val_bounds m F0). pose proof (m_le_M2 (p:=p) lb m Hlb Hlb2 Hm1). split; [exact Hz|]. split; [lia|apply of_Z_val]. }
  split; exact C.
Qed.
(** a base point of prime order above [2^window_bits] satisfies [tables_finite] *)
Lemma prime_order_tables g w nw ord : onc g -> g <> None -> prime (Z.of_nat ord) -> 2 ^ Z.of_nat w < Z.of_nat ord -> (0 < w)%nat -> emul m ord g = None -> tables_finite w nw g.
Proof.
  intros Og Ng Po Hlt Hw Eo t j _ Hj E. pose proof (prime_order m Hm H3 b Hb g ord _ Og Ng Po Eo E) as D.
  rewrite Nat2Z.inj_mul, Nat2Z.inj_pow in D. change (Z.of_nat 2) with 2 in D.
  assert (H2w : 2 ^ 1 <= 2 ^ Z.of_nat w) by (apply Z.pow_le_mono_r; lia).
  apply prime_mult in D; [|exact Po]. destruct D as [D|D].
  - apply Z.divide_pos_le in D; [|lia]. assert (Z.of_nat j < 2 ^ Z.of_nat w); [|lia]. destruct Hj as [_ Hj]. apply Nat2Z.inj_lt in Hj. rewrite Nat2Z.inj_pow in Hj. exact Hj.
  - assert (G : forall s, ~ (Z.of_nat ord | 2 ^ Z.of_nat s)).
    { induction s as [|s IH]; intros DD.
      - change (2 ^ Z.of_nat 0) with 1 in DD. apply Z.divide_pos_le in DD; lia.
      - rewrite (Nat2Z.inj_succ s), Z.pow_succ_r in DD by lia. apply prime_mult in DD; [|exact Po]. destruct DD as [DD|DD]; [|tauto]. apply Z.divide_pos_le in DD; lia. }
    exact (G _ D).
Qed.
End Fixed.

(** Concrete case: the BN254 generator [(1, 2)] times a 2-bit scalar with one 2-bit window (BN254's base field over its scalar field). *)
Section Instance.
Local Open Scope monad_scope.
Notation lb := 17%nat.
Notation n := 88%nat.
Notation k := 3%nat.
Notation q := bn_q.
Lemma bn_tables : tables_finite q 2 1 (Some (of_Z q 1, of_Z q 2)).
Proof.
  intros t j Ht Hj. replace t with 0%nat by lia. change (2 ^ (0 * 2))%nat with 1%nat. rewrite Nat.mul_1_r.
  destruct Hj as [H1 H2]. change (2 ^ 2)%nat with 4%nat in H2. destruct j as [|[|[|[|j]]]]; [lia| | | |lia]; vm_compute; discriminate.
Qed.
Example C60_example : forall ch ax ay rx ry (v : F bn_r), fpchip_new (p:=bn_r) bn_q n k = Some ch ->
  Logic.sound lb
    (s <- load_witness v ;; R <- fixed_scalar_multiply lb q ch bn_b ax ay rx ry (Some (of_Z q 1, of_Z q 2)) [s] 2 2 ;; ret (s, R))
    (fun _ => True) (fun sg sR => enc q n bn_b (avs sg) (snd sR) (emul q (Z.to_nat (val (avs sg (fst sR)))) (Some (of_Z q 1, of_Z q 2)))).
Proof.
  intros ch ax ay rx ry v HN. pose proof bn254_r_prime as Hp. pose proof bn254_q_prime as Hq. pose proof bn_fp_params as HK.
  eapply sound_bind; [apply sound_load_witness|]. intros s _.
  eapply sound_bind.
  { apply (C60_fixed_base_sound bn_r q lb Hp bn_lb bn_2lb Hq bn_lt3 n k ch HN HK bn_he1 bn_he2 bn_b bn_b_nz ax ay rx ry (of_Z q 1) (of_Z q 2) [s] 2 2 bn_gen_on_curve bn_tables).
    reflexivity. }
  cbv beta. intros R _. apply sound_ret; [exact I|]. cbn [fst snd map]. intros sg (ts & F & H) _.
  inversion F as [|? t ? l0 [B1 B2] F' E1 E2]; subst. inversion F'; subst. cbn [undigits] in H. rewrite Z.mul_0_r, Z.add_0_r in H.
  rewrite <- B2. rewrite val_of_Z_small; [exact H|]. change (2 ^ Z.of_nat 2) with 4 in B1. split; [apply B1|]. apply Z.lt_trans with 4; [apply B1|reflexivity].
Qed.
End Instance.
