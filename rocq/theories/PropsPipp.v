(** Property theorem C85: multi-scalar multiplication of more than 25 points (halo2-ecc/src/ecc/pippenger.rs:219-339) and the
    dispatch between the two algorithms (halo2-ecc/src/ecc/mod.rs:1061-1103). Reading guide: [sound] as in PropsGate.v,
    [enc], [y_nonzero], [rep] and [msum] as in PropsMsm.v (C58), whose conclusion this repeats for the other algorithm. *)
From Coq Require Import ZArith Znumtheory Lia List Bool Ring.
From Verif Require Import Field Spec Context ContextProofs Utils Logic Gate GateProofs ChainProofs IPProofs BitProofs PowProofs IPComp Derived Calc CalcH
  Range RangeProofs RangeProofs2 RangeProofs3 BigInt BigSpec BigNum BigPrims BigOps BigSel BigCmp BigSub BigCarry BigMod BigCrtNum BigCrt
  FpChip FpProofs FpProofs2 FpProofs3 FpField FpField2 FpField3 Bn254Primes PropsBigInt PropsFp EcGroup EccFacts SafeTypes Ecc EccProofs EccProofs2 EccProofs3 PropsEcc EcComb SafeProofs2 MsmProofs MsmProofs2 PropsMsm Pippenger PippengerProofs.
Import ListNotations.
Local Open Scope Z_scope.

Section Pip.
Context (p m : positive) (lb : nat) (Hp : prime (Z.pos p)) (Hlb : (1 <= lb < 64)%nat) (Hlb2 : (2 * lb <= CAPACITY p)%nat) (Hm : prime (Z.pos m)) (H3 : 3 < Z.pos m).
Context (n k : nat) (ch : fpchip p) (HN : fpchip_new m n k = Some ch) (HK : fp_params (p:=p) lb m n k).
Notation M2 := (2 ^ Z.of_nat (bits (Z.pos m))).
Context (HE1 : (Nat.max (log2_ceil (Z.of_nat k) + 2 * n + 5) (2 * n + bit_length (Z.of_nat k)) + lb + 2 <= CAPACITY p)%nat)
  (HE2 : 64 * (M2 * M2) < 2 ^ Z.of_nat (n * k + NUM_BITS p)).
Context (b : F m) (Hb : b <> F0).
Notation ecpt := (ecpt p).
Notation at_pt := (at_pt (p:=p) m n).
Notation shape := (shape (p:=p) n k).
Notation onc := (onc m b).
Notation eadd := (eadd m).
Notation eneg := (eneg m).
Notation lcf := (lcf m).
Notation pt := (pt m).
Notation sound := (sound lb).
Notation enc := (enc (p:=p) m n b).
Notation gat := (gat p m n).
Notation gst := (gst p m n).
Notation pin := (pin p m n).
Notation binds := (binds p).
Notation onc2 := (onc2 m b).
Notation msum := (msum m).
Let Hm1 : 1 < Z.pos m. Proof. lia. Qed.

Theorem C85_pippenger_sound : forall (ax ay rx ry : F m) (Ps : list ecpt) (scalars : list (list (AV p))) (max_bits clump_factor : nat),
  Forall shape Ps -> Forall (fun s => length s = length (hd [] scalars)) scalars ->
  sound (multi_exp_par lb m ch b ax ay rx ry Ps scalars max_bits clump_factor) shape
    (fun sg R => forall gs, Forall2 (enc (avs sg)) Ps gs -> Forall (y_nonzero m) gs ->
       exists ts, Forall2 (Forall2 (rep max_bits (avs sg))) scalars ts /\ enc (avs sg) R (msum (combine (map (undigits max_bits) ts) gs))).
Proof.
  intros ax ay rx ry Ps scalars mb c KPs HLs. unfold multi_exp_par. cbv zeta.
  apply sound_assert_bind. intros E1. apply Nat.eqb_eq in E1. apply sound_lift_bind. intros s0 Es0.
  apply sound_assert_bind. intros E2. apply negb_true_iff, Nat.eqb_neq in E2.
  assert (Hs0 : hd [] scalars = s0) by (destruct scalars; [discriminate|now injection Es0]). rewrite Hs0 in HLs.
  set (sb := (mb * length s0)%nat).
  eapply sound_bind.
  { apply (sound_mapM lb _ (fun scalar bl => length bl = sb)
      (fun sg scalar bl => exists bs ts, binds sg bl bs /\ Forall2 (chunk_of p mb sg) scalar ts /\ zb bs = undigits mb ts)).
    intros s Hin. rewrite Forall_forall in HLs. apply (g_pip_bits p m lb Hp Hlb Hlb2 n k HE1 HE2). now apply HLs. }
  cbv beta. intros bits HBits. apply sound_assert_bind. intros E3. apply negb_true_iff, Nat.eqb_neq in E3.
  assert (HBl : Forall (fun bl => length bl = sb) bits). { clear - HBits. induction HBits; constructor; auto. }
  assert (Lbits : length bits = length Ps) by (rewrite <- (Forall2_len _ _ _ HBits); symmetry; exact E1).
  set (columns := map (pip_column bits) (seq 0 sb)). set (clumps := chunks c Ps). set (nc := length clumps).
  assert (Lps : (0 < length Ps)%nat). { rewrite E1. destruct scalars; [discriminate|cbn; lia]. }
  assert (Enc : nc = ceil_div (length Ps) c). { unfold nc, clumps, chunks. now rewrite map_length, seq_length. }
  assert (Hnc : (length Ps <= nc * c)%nat /\ (0 < nc)%nat).
  { rewrite Enc. unfold ceil_div. pose proof (Nat.div_mod (length Ps + c - 1) c E3). pose proof (Nat.mod_upper_bound (length Ps + c - 1) c E3). clear - H H0 E3 Lps. split; nia. }
  assert (Hcl : forall r cl, nth_error clumps r = Some cl -> cl = firstn c (skipn (r * c) Ps)).
  { intros r cl E. unfold clumps, chunks in E. rewrite nth_error_map in E. destruct (nth_error (seq 0 _) r) as [r'|] eqn:Er; [|discriminate]. cbn in E. injection E as <-.
    assert (Hr : (r < ceil_div (length Ps) c)%nat) by (rewrite <- (seq_length (ceil_div (length Ps) c) 0); apply nth_error_Some; congruence).
    rewrite (nth_error_nth' _ 0%nat) in Er by (now rewrite seq_length). rewrite seq_nth in Er by exact Hr. injection Er as <-. reflexivity. }
  eapply sound_bind; [apply (proj1 (proj2 (C55_load_private p m lb Hp Hlb Hlb2 H3 n k ch HN HK HE1 HE2 b ax ay)))|]. intros A0 KA.
  eapply sound_bind; [apply (g_chain p m lb Hp Hlb Hlb2 Hm H3 n k ch HN HK HE1 HE2 b Hb (nc - 1) A0 KA)|]. cbv beta. intros rest [Lrest Krest].
  assert (KAny : Forall shape (A0 :: rest)) by (constructor; auto). pose proof (proj1 (Forall_forall _ _) KAny) as KAny'.
  set (items := combine (seq 0 nc) (combine clumps (A0 :: rest))).
  assert (Litems : length items = nc). { unfold items. rewrite !combine_length, seq_length. fold nc. cbn [length]. lia. }
  assert (Hit : forall r it, nth_error items r = Some it -> exists cl A, it = (r, (cl, A)) /\ nth_error clumps r = Some cl /\ nth_error (A0 :: rest) r = Some A).
  { intros r it E.
    assert (Hr : (r < nc)%nat) by (rewrite <- Litems; apply nth_error_Some; congruence).
    destruct (nth_error clumps r) as [cl|] eqn:Ec; [|apply nth_error_None in Ec; fold nc in Ec; lia].
    destruct (nth_error (A0 :: rest) r) as [A|] eqn:EA; [|apply nth_error_None in EA; cbn [length] in EA; lia].
    exists cl, A. split; [|auto].
    assert (G : forall (l1 : list nat) (l2 : list (list ecpt)) (l3 : list ecpt) i x y z, nth_error l1 i = Some x -> nth_error l2 i = Some y -> nth_error l3 i = Some z ->
       nth_error (combine l1 (combine l2 l3)) i = Some (x, (y, z))).
    { clear. induction l1 as [|x1 l1 IH]; intros [|y1 l2] [|z1 l3] [|i] x y z X1 X2 X3; try discriminate; cbn in *; [congruence|now apply IH]. }
    assert (Es : nth_error (seq 0 nc) r = Some r) by (rewrite (nth_error_nth' _ 0%nat) by (now rewrite seq_length); now rewrite seq_nth by exact Hr).
    unfold items in E. rewrite (G _ _ _ r r cl A Es Ec EA) in E. congruence. }
  eapply sound_bind.
  { apply (sound_mapM lb _ (fun _ row => Forall2 (fun _ R => shape R) columns row)
      (fun sg it row => forall Bs base a gs, Forall onc Bs -> gat Bs (avs sg) (snd (snd it)) base -> Forall2 (pin (avs sg)) (fst (snd it)) gs ->
       (forall t g, nth_error gs t = Some g -> nth_error Bs (a + t) = Some g) ->
       Forall2 (fun col R => forall cb, binds sg col cb ->
          gst Bs (avs sg) R (fun j => base j + bsum a (firstn (length (fst (snd it))) (skipn (fst it * c) cb)) j)) columns row)).
    intros it Hin. apply In_nth_error in Hin as [r Er]. destruct (Hit r it Er) as (cl & A & -> & Ec & EA). cbn [fst snd].
    apply (g_round p m lb Hp Hlb Hlb2 Hm H3 n k ch HN HK HE1 HE2 b Hb); [apply KAny'; eapply nth_error_In; exact EA|].
    rewrite (Hcl r cl Ec). clear - KPs. rewrite Forall_forall in *. intros P HP. apply KPs. 
    apply In_nth_error in HP as [t Et]. apply nth_error_firstn_Some in Et. rewrite nth_error_skipn' in Et. eapply nth_error_In; exact Et. }
  cbv beta. intros rows HRows.
  assert (Lrows : length rows = nc) by (rewrite <- (Forall2_len _ _ _ HRows); exact Litems).
  assert (KRows : Forall (Forall shape) rows).
  { clear - HRows. induction HRows as [|it row its rows H _ IH]; constructor; auto. clear - H. induction H; constructor; auto. }
  eapply sound_bind.
  { apply (sound_mapM lb _ (fun _ R => shape R) (fun sg i R => forall Bs ds, Forall onc Bs ->
      Forall2 (fun row d => exists mp, nth_error row i = Some mp /\ gst Bs (avs sg) mp d) rows ds -> gst Bs (avs sg) R (sumd ds))).
    intros i _. apply (g_agg p m lb Hp Hlb Hlb2 Hm H3 n k ch HN HK HE1 HE2 b Hb rows i KRows). }
  cbv beta. intros agg HAgg.
  assert (Kagg : Forall shape agg). { clear - HAgg. induction HAgg; constructor; auto. }
  assert (Lagg : length agg = sb) by (rewrite <- (Forall2_len _ _ _ HAgg); apply seq_length).
  apply sound_lift_bind. intros lastA Elast.
  assert (KlA : shape lastA) by (apply KAny'; eapply nth_error_In; exact Elast).
  eapply sound_bind; [apply (g_double p m lb Hp Hlb Hlb2 Hm H3 n k ch HN HK HE1 HE2 b Hb lastA KlA)|]. intros any1 Kany1.
  eapply sound_bind; [apply (g_sub p m lb Hp Hlb Hlb2 Hm H3 n k ch HN HK HE1 HE2 b Hb any1 A0 Kany1 KA)|]. intros any2 Kany2.
  apply sound_lift_bind. intros top Etop.
  pose (ragg := rev agg). assert (Erag : ragg = rev agg) by reflexivity. clearbody ragg. rewrite <- Erag in Etop |- *. destruct ragg as [|top' gsl]; [discriminate|]. cbn in Etop. injection Etop as ->. cbn [skipn].
  assert (Erev : rev agg = top :: gsl) by (symmetry; exact Erag).
  assert (Krev : Forall shape (top :: gsl)) by (rewrite Erag; now apply Forall_rev). pose proof (Forall_inv Krev) as Ktop. pose proof (Forall_inv_tail Krev) as Kgsl.
  assert (Lgsl : S (length gsl) = sb) by (rewrite <- Lagg, <- (rev_length agg), Erev; reflexivity).
  eapply sound_bind; [apply (g_horner p m lb Hp Hlb Hlb2 Hm H3 n k ch HN HK HE1 HE2 b Hb gsl (any2, top) Kany2 Ktop Kgsl)|]. cbv beta. intros st [Kst1 Kst2].
  eapply sound_bind; [apply (g_double p m lb Hp Hlb Hlb2 Hm H3 n k ch HN HK HE1 HE2 b Hb (fst st) Kst1)|]. intros any3 Kany3.
  eapply sound_bind; [apply (g_sub p m lb Hp Hlb Hlb2 Hm H3 n k ch HN HK HE1 HE2 b Hb any3 any2 Kany3 Kany2)|]. intros any4 Kany4.
  eapply sound_weaken; [apply (C56_sub_strict_sound p m lb Hp Hlb Hlb2 Hm H3 n k ch HN HK HE1 HE2 b rx ry (snd st) any4 Kst2 Kany4)|auto|cbv beta].
  intros sg R _ HSub HS4 HD3 HHor HS2 HD1 HAggQ HRowQ HChain (xa & ya & AA & OA) HBitsQ gs Hgs Hy.
  pose (Bs := Some (xa, ya) :: gs).
  assert (HB : Forall onc Bs).
  { constructor; [exact OA|]. clear - Hgs. induction Hgs as [|P g Ps gs HP _ IH]; constructor; auto. destruct g as [[x y]|]; [exact (proj2 HP)|exact I]. }
  assert (HR : forall i r, nth_error (A0 :: rest) i = Some r -> gat Bs (avs sg) r (fun j => 2 ^ Z.of_nat i * unit_at 0 j)).
  { assert (G0 : gat Bs (avs sg) A0 (unit_at 0)) by (exists xa, ya; split; [exact AA|]; now apply (lcf_unit m Bs 0)).
    intros [|i] r E; [injection E as <-; eapply gat_ext; [|exact G0]; intros j B _; right; change (2 ^ Z.of_nat 0) with 1; lia|].
    exact (HChain Bs _ HB G0 i r E). }
  assert (GB : exists bss ts, Forall2 (binds sg) bits bss /\ Forall2 (Forall2 (chunk_of p mb sg)) scalars ts /\ map zb bss = map (undigits mb) ts).
  { clear - HBitsQ. induction HBitsQ as [|s bl ss bls H _ (bss & ts & I1 & I2 & I3)]; [exists [], []; repeat split; constructor|].
    destruct H as (bs & t & H1 & H2 & H4'). exists (bs :: bss), (t :: ts). split; [|split]; [now constructor|now constructor|]. cbn. now rewrite I3, H4'. }
  destruct GB as (bss & ts & GB1 & GB2 & GB3). exists ts. split; [exact GB2|].
  assert (LBs : Forall (fun bs => length bs = sb) bss).
  { clear - HBl GB1. revert HBl. induction GB1 as [|x y l l' Hxy _ IH]; intros HF; constructor; inversion HF as [|? ? E0 HF']; subst; auto. rewrite <- E0. symmetry. eapply binds_len; eauto. }
  assert (Lbss : length bss = length Ps) by (rewrite <- (Forall2_len _ _ _ GB1); exact Lbits).
  assert (Lgs : length gs = length Ps) by (symmetry; exact (Forall2_len _ _ _ Hgs)).
  assert (HPin : Forall2 (pin (avs sg)) Ps gs).
  { clear - Hgs Hy. revert Hy. induction Hgs as [|P g Ps gs HP _ IH]; intros HF; constructor; inversion HF; subst; auto. destruct g as [[x y]|]; [exact (conj (proj1 HP) H1)|exact HP]. }
  set (cbt := fun t => map (fun bs => nth t bs false) bss).
  assert (Lcb : forall t, length (cbt t) = length Ps) by (intros t; unfold cbt; now rewrite map_length).
  (* the entries selected in each round *)
  assert (HRow : forall t, (t < sb)%nat -> Forall2 (fun row d => exists mp, nth_error row t = Some mp /\ gst Bs (avs sg) mp d) rows (map (fun r => round_c c r (cbt t)) (seq 0 nc))).
  { intros t Ht. rewrite <- Lrows. apply F2_seq. intros r row Erow. cbn [Nat.add].
    assert (Hr : (r < nc)%nat) by (rewrite <- Lrows; apply nth_error_Some; congruence).
    destruct (nth_error items r) as [it|] eqn:Eit; [|apply nth_error_None in Eit; lia].
    destruct (Forall2_nth_l _ _ _ HRowQ r it Eit) as (row' & Erow' & HQ). rewrite Erow in Erow'. injection Erow' as <-.
    destruct (Hit r it Eit) as (cl & A & -> & Ec & EA). cbn [fst snd] in HQ. pose proof (Hcl r cl Ec) as ->.
    specialize (HQ Bs _ (S (r * c)) (firstn c (skipn (r * c) gs)) HB (HR r A EA)).
    assert (HQ' : Forall2 (fun col R => forall cb, binds sg col cb ->
          gst Bs (avs sg) R (fun j => 2 ^ Z.of_nat r * unit_at 0 j + bsum (S (r * c)) (firstn (length (firstn c (skipn (r * c) Ps))) (skipn (r * c) cb)) j)) columns row).
    { apply HQ; [now apply F2_firstn, F2_skipn|]. intros u g Eu. apply nth_error_firstn_Some in Eu. rewrite nth_error_skipn' in Eu. exact Eu. }
    clear HQ. assert (Ecol : nth_error columns t = Some (pip_column bits t)).
    { unfold columns. rewrite nth_error_map, (nth_error_nth' _ 0%nat) by (now rewrite seq_length). now rewrite seq_nth by exact Ht. }
    destruct (Forall2_nth_l _ _ _ HQ' t _ Ecol) as (mp & Emp & Hmp). exists mp. split; [exact Emp|].
    eapply gst_ext; [|apply (Hmp (cbt t))]; [|unfold cbt; now apply (column_binds p m lb Hlb Hlb2 n k HE1 HE2 sg bits bss t sb)].
    intros j B _. right. cbv beta. unfold round_c. now rewrite clump_bits. }
  set (at_c := fun t j => (2 ^ Z.of_nat nc - 1) * unit_at 0 j + bsum 1 (cbt t) j).
  assert (GAgg : Forall2 (gst Bs (avs sg)) agg (map at_c (seq 0 sb))).
  { rewrite <- Lagg. apply F2_seq. intros t g Eg. cbn [Nat.add].
    assert (Ht : (t < sb)%nat) by (rewrite <- Lagg; apply nth_error_Some; congruence).
    assert (Es : nth_error (seq 0 sb) t = Some t) by (rewrite (nth_error_nth' _ 0%nat) by (now rewrite seq_length); now rewrite seq_nth by exact Ht).
    destruct (Forall2_nth_l _ _ _ HAggQ t t Es) as (g' & Eg' & Hg). rewrite Eg in Eg'. injection Eg' as <-.
    eapply gst_ext; [|apply (Hg Bs _ HB (HRow t Ht))]. intros j B _. right. rewrite sum_rounds, firstn_all2 by (rewrite Lcb; lia). reflexivity. }
  apply F2_rev in GAgg. rewrite Erev in GAgg. destruct (rev (map at_c (seq 0 sb))) as [|d0 ds] eqn:Ed; inversion GAgg as [|? ? ? ? Gtop Ggsl]; subst.
  assert (GA2 : gat Bs (avs sg) any2 (fun j => (2 ^ Z.of_nat nc - 1) * unit_at 0 j)).
  { assert (Elast' : nth_error (A0 :: rest) (nc - 1) = Some lastA) by (rewrite <- Elast; f_equal; cbn [length]; lia).
    eapply gat_ext; [|apply (HS2 Bs _ _ HB (HD1 Bs _ HB (HR _ _ Elast')) (HR 0%nat A0 eq_refl))]. intros j B _. right. cbv beta.
    replace (Z.of_nat nc) with (Z.succ (Z.of_nat (nc - 1))) by lia. rewrite Z.pow_succ_r by lia. change (2 ^ Z.of_nat 0) with 1. ring. }
  assert (Gtop' : gat Bs (avs sg) top d0) by (destruct Gtop as (u1 & u2 & U1 & _ & U2); exists u1, u2; split; assumption).
  destruct (HHor Bs _ d0 ds HB GA2 Gtop' Ggsl) as [GA3 GSum]. cbn [fst snd] in GA3, GSum.
  pose proof (HS4 Bs _ _ HB (HD3 Bs _ HB GA3) GA2) as GA4.
  destruct GSum as (x1 & y1 & A1 & F1'). destruct GA4 as (x2 & y2 & A2 & F2').
  match type of F1' with EcComb.lcf _ ?c1 _ = _ => pose proof (lcf_onc m Hm H3 b Bs HB c1) as O1 end. rewrite F1' in O1.
  match type of F2' with EcComb.lcf _ ?c2 _ = _ => pose proof (lcf_onc m Hm H3 b Bs HB c2) as O2 end. rewrite F2' in O2.
  specialize (HSub x1 y1 x2 y2 A1 A2 O1 O2).
  assert (EQ : eadd (Some (x1, y1)) (eneg (Some (x2, y2))) = msum (combine (map (undigits mb) ts) gs)).
  { rewrite <- F1', <- F2', <- (lcf_opp m Hm H3 b Hb Bs HB), <- (lcf_add m Hm H3 b Hb Bs HB).
    rewrite <- GB3. unfold Bs. cbn [EcComb.lcf].
    match goal with |- EcGroup.eadd m (zmul m ?z _) _ = _ => replace z with 0 end.
    2:{ rewrite (hor_hval (map at_c (seq 0 sb)) d0 ds 0%nat Ed).
        rewrite (hval_const _ 0 (2 ^ Z.of_nat nc - 1)).
        - rewrite map_length, seq_length, <- Lgsl, Nat2Z.inj_succ, Z.pow_succ_r by lia. unfold unit_at. cbn [Nat.eqb]. ring.
        - rewrite Forall_map. apply Forall_forall. intros t _. unfold at_c. rewrite bsum_nth. unfold unit_at. cbn [Nat.eqb Nat.leb]. ring. }
    change (zmul m 0 (Some (xa, ya))) with (@None (F m * F m)). cbn [EcGroup.eadd].
    apply (lcf_msum m). { rewrite map_length. lia. }
    intros i Hi. assert (Hi' : (i < length bss)%nat) by lia. rewrite (nth_indep (map zb bss) 0 (zb [])) by (rewrite map_length; exact Hi'). rewrite map_nth.
    split; [|exact (proj1 (zb_bound _))].
    rewrite (hor_hval (map at_c (seq 0 sb)) d0 ds (S i) Ed). rewrite (hval_digits _ _ (nth i bss [])).
    - unfold unit_at. cbn [Nat.eqb]. ring.
    - rewrite map_map. rewrite Forall_forall in LBs. pose proof (LBs (nth i bss []) (nth_In _ _ Hi')) as Lb.
      rewrite <- (map_nth_seq (nth i bss [])) at 1. rewrite Lb, map_map. apply map_ext_in. intros t _. unfold at_c. rewrite bsum_nth. unfold unit_at. cbn [Nat.eqb Nat.leb].
      unfold cbt. replace (S i - 1)%nat with i by lia.
      replace (nth i (map (fun bs => nth t bs false) bss) false) with (nth t (nth i bss []) false); [ring|].
      rewrite (nth_indep (map (fun bs => nth t bs false) bss) false (nth t (@nil bool) false)) by (rewrite map_length; exact Hi'). now rewrite (map_nth (fun bs => nth t bs false)). }
  rewrite EQ in HSub. pose proof (eadd_onc m Hm H3 b (Some (x1, y1)) (eneg (Some (x2, y2))) O1 (eneg_onc m Hm b (Some (x2, y2)) O2)) as O3. rewrite EQ in O3.
  destruct (msum _) as [[x3 y3]|]; [split; [exact (proj2 HSub)|exact O3]|exact HSub].
Qed.

(** Whichever algorithm the number of points selects, the result is the sum of the multiples. *)
Theorem C85_variable_base_msm_sound : forall (ax ay rx ry : F m) (Ps : list ecpt) (scalars : list (list (AV p))) (max_bits window_bits : nat),
  Forall shape Ps -> Forall (fun s => length s = length (hd [] scalars)) scalars ->
  sound (variable_base_msm_custom lb m ch b ax ay rx ry Ps scalars max_bits window_bits) shape
    (fun sg R => forall gs, Forall2 (enc (avs sg)) Ps gs -> Forall (y_nonzero m) gs ->
       exists ts, Forall2 (Forall2 (rep max_bits (avs sg))) scalars ts /\ enc (avs sg) R (msum (combine (map (undigits max_bits) ts) gs))).
Proof.
  intros ax ay rx ry Ps scalars mb w KPs HLs. unfold variable_base_msm_custom. destruct (Nat.leb (length Ps) 25).
  - now apply (C58_msm_sound p m lb Hp Hlb Hlb2 Hm H3 n k ch HN HK HE1 HE2 b Hb).
  - now apply C85_pippenger_sound.
Qed.
(** limbs of at most [CAPACITY] bits: the multiples are determined, and out-of-range limbs are refused *)
Theorem C85_msm_exact : forall (ax ay rx ry : F m) (Ps : list ecpt) (scalars : list (list (AV p))) (max_bits window_bits : nat),
  Forall shape Ps -> Forall (fun s => length s = length (hd [] scalars)) scalars -> 2 ^ Z.of_nat max_bits <= Z.pos p ->
  sound (variable_base_msm_custom lb m ch b ax ay rx ry Ps scalars max_bits window_bits) shape
    (fun sg R => forall gs, Forall2 (enc (avs sg)) Ps gs -> Forall (y_nonzero m) gs ->
       Forall (Forall (fun s => val (avs sg s) < 2 ^ Z.of_nat max_bits)) scalars /\
       enc (avs sg) R (msum (combine (map (fun s => undigits max_bits (map (fun c => val (avs sg c)) s)) scalars) gs))).
Proof.
  intros ax ay rx ry Ps scalars mb w KPs HLs Hle.
  eapply sound_weaken; [apply (C85_variable_base_msm_sound ax ay rx ry Ps scalars mb w KPs HLs)|auto|cbv beta]. intros sg R _ H gs Hgs Hy.
  destruct (H gs Hgs Hy) as (ts & H2 & HR).
  assert (G1 : forall s t, rep (p:=p) mb (avs sg) s t -> val (avs sg s) = t).
  { intros s t [B E]. rewrite <- E. apply val_of_Z_small. lia. }
  assert (G : Forall (Forall (fun s => val (avs sg s) < 2 ^ Z.of_nat mb)) scalars /\ map (fun s => undigits mb (map (fun c => val (avs sg c)) s)) scalars = map (undigits mb) ts).
  { clear - H2 G1. induction H2 as [|s t ss ts H _ [I1 I2]]; [split; [constructor|reflexivity]|].
    assert (K : Forall (fun s => val (avs sg s) < 2 ^ Z.of_nat mb) s /\ map (fun c => val (avs sg c)) s = t).
    { clear - H G1. induction H as [|c z s t Hc _ [I1 I2]]; [split; [constructor|reflexivity]|]. pose proof (G1 c z Hc) as E. destruct Hc as [B _].
      split; [constructor; [rewrite E; apply B|exact I1]|]. cbn [map]. rewrite E, I2. reflexivity. }
    destruct K as [K1 K2]. split; [constructor; auto|]. cbn [map]. rewrite K2, I2. reflexivity. }
  destruct G as [G2 G3]. split; [exact G2|]. rewrite G3. exact HR.
Qed.
(** full-width single-limb scalars are exact when the native modulus annihilates the points (the documented assumption) *)
Theorem C85_msm_full_width : forall (ax ay rx ry : F m) (Ps : list ecpt) (scalars : list (AV p)) (max_bits window_bits : nat),
  Forall shape Ps ->
  sound (variable_base_msm_custom lb m ch b ax ay rx ry Ps (map (fun s => [s]) scalars) max_bits window_bits) shape
    (fun sg R => forall gs, Forall2 (enc (avs sg)) Ps gs -> Forall (y_nonzero m) gs -> Forall (fun g => emul m (Pos.to_nat p) g = None) gs ->
       enc (avs sg) R (msum (combine (map (fun s => val (avs sg s)) scalars) gs))).
Proof.
  intros ax ay rx ry Ps scalars mb w KPs.
  assert (HLs : Forall (fun s : list (AV p) => length s = length (hd [] (map (fun s => [s]) scalars))) (map (fun s => [s]) scalars)).
  { apply Forall_forall. intros s Hin. destruct scalars as [|s0 ss]; [destruct Hin|]. cbn [map hd length]. apply in_map_iff in Hin as (? & <- & _). reflexivity. }
  eapply sound_weaken; [apply (C85_variable_base_msm_sound ax ay rx ry Ps (map (fun s => [s]) scalars) mb w KPs HLs)|auto|cbv beta]. intros sg R _ H gs Hgs Hy HO.
  destruct (H gs Hgs Hy) as (ts & H2 & HR).
  assert (E : msum (combine (map (undigits mb) ts) gs) = msum (combine (map (fun s => val (avs sg s)) scalars) gs)).
  { assert (On : Forall onc gs). { clear - Hgs. induction Hgs as [|P g Ps gs HP _ IH]; constructor; auto. destruct g as [[x y]|]; [exact (proj2 HP)|exact I]. }
    clear H HR Hgs Hy HLs KPs. revert gs HO On ts H2. induction scalars as [|s ss IH]; intros gs HO On ts H2; inversion H2 as [|? t ? ts' Ht H2']; subst; [reflexivity|].
    destruct gs as [|g gs]; [reflexivity|]. inversion HO; inversion On; subst. cbn [map combine EcComb.msum]. f_equal; [|apply IH; auto].
    inversion Ht as [|? z ? ? [B Ez] Ht']; subst. inversion Ht'; subst. cbn [undigits]. rewrite Z.mul_0_r, Z.add_0_r. eapply emul_cong; try eassumption; lia. }
  rewrite <- E. exact HR.
Qed.
End Pip.

(** ** BN254: a circuit over [r] that multiplies 26 copies of G1's generator (1, 2) by a 253-bit witness computes exactly
    the sum of these multiples *)
Section Instance.
Local Open Scope monad_scope.
Notation lb := 17%nat.
Notation n := 88%nat.
Notation k := 3%nat.
Notation q := bn_q.
Notation gen := (Some (of_Z q 1, of_Z q 2) : pt q).
Example C85_example : forall ch ax ay rx ry (v : F bn_r), fpchip_new (p:=bn_r) bn_q n k = Some ch ->
  Logic.sound lb
    (G <- ecc_assign_constant_point q ch (of_Z q 1) (of_Z q 2) ;;
     s <- load_witness v ;;
     R <- variable_base_msm_custom lb q ch bn_b ax ay rx ry (repeat G 26) (repeat [s] 26) 253 4 ;; ret (s, R))
    (fun _ => True) (fun sg sR => enc q n bn_b (avs sg) (snd sR) (msum q (repeat (val (avs sg (fst sR)), gen) 26))).
Proof.
  intros ch ax ay rx ry v HN. pose proof bn254_r_prime as Hp. pose proof bn254_q_prime as Hq. pose proof bn_fp_params as HK.
  eapply sound_bind; [apply (proj1 (proj2 (proj2 (C55_assign_point bn_r q lb Hp bn_lb bn_2lb bn_lt3 n k ch HN HK bn_he1 bn_he2 bn_b (of_Z q 1) (of_Z q 2)))))|]. intros G KG.
  eapply sound_bind; [apply sound_load_witness|]. intros s _.
  eapply sound_bind.
  { apply (C85_msm_exact bn_r q lb Hp bn_lb bn_2lb Hq bn_lt3 n k ch HN HK bn_he1 bn_he2 bn_b bn_b_nz ax ay rx ry (repeat G 26) (repeat [s] 26) 253 4).
    - apply Forall_forall. intros P HP. apply repeat_spec in HP as ->. exact KG.
    - apply Forall_forall. intros P HP. apply repeat_spec in HP as ->. reflexivity.
    - vm_compute. discriminate. }
  cbv beta. intros R _. apply sound_ret; [exact I|]. cbn [fst snd]. intros sg H _ AG.
  destruct (H (repeat gen 26)) as [_ HR].
  - clear - AG. assert (E : enc q n bn_b (avs sg) G gen) by exact (conj AG bn_gen_on_curve). clear AG.
    enough (X : forall i, Forall2 (enc q n bn_b (avs sg)) (repeat G i) (repeat gen i)) by apply X. intros i. induction i as [|i IH]; cbn [repeat]; constructor; assumption.
  - apply Forall_forall. intros P HP. apply repeat_spec in HP as ->. apply of_Z_nz. vm_compute. split; reflexivity.
  - enough (X : forall i, combine (map (fun s => undigits 253 (map (fun c => val (avs sg c)) s)) (repeat [s] i)) (repeat gen i) = repeat (val (avs sg s), gen) i) by (rewrite X in HR; exact HR).
    clear. intros i. induction i as [|i IH]; [reflexivity|]. cbn [repeat map combine]. rewrite IH. cbn [undigits]. rewrite Z.mul_0_r, Z.add_0_r. reflexivity.
Qed.
End Instance.
