(** Soundness of [multi_exp_par] (halo2-ecc/src/ecc/pippenger.rs:219-339): the bucket, the rounds and the final loop. *)
From Coq Require Import ZArith Znumtheory Lia List Bool Ring.
From Verif Require Import Field Spec Context ContextProofs Utils Logic Gate GateProofs ChainProofs IPProofs BitProofs PowProofs IPComp Derived Calc CalcH
  Range RangeProofs RangeProofs2 RangeProofs3 BigInt BigSpec BigNum BigPrims BigOps BigSel BigCmp BigSub BigCarry BigMod BigCrtNum BigCrt
  FpChip FpProofs FpProofs2 FpProofs3 FpField FpField2 FpField3 Bn254Primes PropsBigInt PropsFp EcGroup EccFacts SafeTypes Ecc EccProofs EccProofs2 EccProofs3 PropsEcc EcComb SafeProofs2 MsmProofs MsmProofs2 Pippenger.
Import ListNotations.
Local Open Scope Z_scope.

(** the sum of the basis points [a], [a + 1], ... marked by [bs] *)
Fixpoint bsum (a : nat) (bs : list bool) (j : nat) : Z := match bs with [] => 0 | x :: bs => Z.b2z x * unit_at a j + bsum (S a) bs j end.
Lemma bsum_app bs1 : forall a bs2 j, bsum a (bs1 ++ bs2) j = bsum a bs1 j + bsum (a + length bs1) bs2 j.
Proof.
  induction bs1 as [|x l IH]; intros a bs2 j; cbn [bsum app length]; [rewrite Nat.add_0_r; lia|]. rewrite IH. replace (S a + length l)%nat with (a + S (length l))%nat by lia. lia.
Qed.
Lemma zb_snoc bs x : zb (bs ++ [x]) = zb bs + 2 ^ Z.of_nat (length bs) * Z.b2z x.
Proof. rewrite zb_app. f_equal. f_equal. unfold zb. cbn [map undigits]. rewrite Z.mul_0_r. lia. Qed.

Section Pip.
Context (p m : positive) (lb : nat) (Hp : prime (Z.pos p)) (Hlb : (1 <= lb < 64)%nat) (Hlb2 : (2 * lb <= CAPACITY p)%nat) (Hm : prime (Z.pos m)) (H3 : 3 < Z.pos m).
Context (n k : nat) (ch : fpchip p) (HN : fpchip_new m n k = Some ch) (HK : fp_params (p:=p) lb m n k).
Notation M2 := (2 ^ Z.of_nat (bits (Z.pos m))).
Context (HE1 : (Nat.max (log2_ceil (Z.of_nat k) + 2 * n + 5) (2 * n + bit_length (Z.of_nat k)) + lb + 2 <= CAPACITY p)%nat)
  (HE2 : 64 * (M2 * M2) < 2 ^ Z.of_nat (n * k + NUM_BITS p)).
Context (b : F m) (Hb : b <> F0).
Notation ecpt := (ecpt p).
Notation at_pt := (at_pt (p:=p) m n).
Notation at_cmp := (at_cmp (p:=p) m n).
Notation shape := (shape (p:=p) n k).
Notation onc2 := (onc2 m b).
Notation onc := (onc m b).
Notation eadd := (eadd m).
Notation eneg := (eneg m).
Notation lcf := (lcf m).
Notation pt := (pt m).
Notation sound := (sound lb).
Notation gat := (gat p m n).
Notation gst := (gst p m n).
Notation pin := (pin p m n).
Notation binds := (binds p).
Notation chunk_of := (chunk_of p).
Let Hm1 : 1 < Z.pos m. Proof. lia. Qed.

(** ** selection keeps canonical limbs *)
Lemma s_sbi (a : list (crt p)) (coeffs : list (AV p)) : a <> [] -> length a = length coeffs -> Forall (fun c => isk k c n) a ->
  sound (fp_select_by_indicator ch a coeffs) (fun c => isk k c n)
    (fun sg c => forall j aj z, onehot_at j (map (avs sg) coeffs) -> nth_error a j = Some aj -> proper n (avs sg) aj z -> proper n (avs sg) c z).
Proof.
  intros HN0 HL HKs. unfold fp_select_by_indicator.
  destruct (fpchip_new_ok lb m Hp Hlb Hlb2 Hm1 n k ch HN) as ((_ & _ & _ & _ & FB & _) & Hn & _).
  assert (HB : Forall (fun c : crt p => c_bits c = n) a) by (eapply Forall_impl; [|exact HKs]; intros c [_ B]; exact B).
  assert (HLk : Forall (fun c : crt p => length (c_limbs c) = k) a) by (eapply Forall_impl; [|exact HKs]; intros c [B _]; exact B).
  assert (X1 : Forall (cpre (concat (map (fun c : crt p => ccells c) a) ++ coeffs)) a).
  { apply Forall_forall. intros c Hc x Hx. apply in_or_app. left. apply in_concat. exists (ccells c). split; [now apply (in_map (fun c : crt p => ccells c))|auto]. }
  pose proof (h_sbi_crt lb Hp (concat (map (fun c : crt p => ccells c) a) ++ coeffs) (fun _ => True) False a coeffs (f_bases ch) k HN0 HLk X1
    ltac:(apply incl_appr, incl_refl) HL ltac:(rewrite FB; now rewrite fbases_length) ltac:(tauto)) as H.
  eapply sound_weaken; [apply (h_sound lb _ _ _ _ _ H)|cbv beta|cbv beta].
  - intros c (Y1 & Y2 & _). split; auto. rewrite Y2. now apply (max_bits_const lb m Hlb Hlb2 a n).
  - intros sg c (Y1 & Y2 & _) R j aj z Hj Haj A. destruct (R j aj Hj Haj) as [EL EN].
    assert (Bc : c_bits c = n) by (rewrite Y2; now apply (max_bits_const lb m Hlb Hlb2 a n)).
    assert (EN' : avs sg (c_nat c) = avs sg (c_nat aj)).
    { destruct (Nat.ltb k (length a)); auto. destruct A as (_ & _ & -> & ->). rewrite EN, FB, fbases_firstn by auto.
      replace (fbases n k 1) with (fbases (p:=p) n (length (map (avs sg) (c_limbs c))) 1) by now rewrite map_length, Y1.
      rewrite dot_bases_val. now rewrite EL, map_map. }
    eapply same_proper; eauto. now split.
Qed.
Lemma g_ssel (tab : list ecpt) sel : Forall shape tab ->
  sound (ec_select_from_bits ch tab sel) shape
    (fun sg R => forall Bs bs D c, binds sg sel bs -> nth_error tab (Z.to_nat (zb bs)) = Some D -> gst Bs (avs sg) D c -> gst Bs (avs sg) R c).
Proof.
  intros Kt. unfold ec_select_from_bits. apply sound_assert_bind. intros E. apply Nat.eqb_eq in E.
  destruct sel as [|s0 sel'] eqn:Esel.
  { intros s o s' Ws Hx. unfold bits_to_indicator in Hx. cbn in Hx. discriminate. }
  rewrite <- Esel in *. eapply sound_bind.
  { apply (h_sound lb _ _ _ _ _ (h_bits_to_indicator lb sel (fun _ => True) False sel (incl_refl _) ltac:(congruence))). }
  cbv beta. intros co Lco. unfold ec_select_by_indicator.
  assert (N0 : forall f : ecpt -> crt p, map f tab <> []). { intros f. destruct tab; [cbn in E; pose proof (Nat.pow_nonzero 2 (length sel)); lia|discriminate]. }
  eapply sound_bind.
  { apply (s_sbi (map px tab) co); [apply N0|rewrite map_length; lia|]. rewrite Forall_map. eapply Forall_impl; [|exact Kt]. intros P [A _]. exact A. }
  cbv beta. intros rx Kx. eapply sound_bind.
  { apply (s_sbi (map py tab) co); [apply N0|rewrite map_length; lia|]. rewrite Forall_map. eapply Forall_impl; [|exact Kt]. intros P [_ A]. exact A. }
  cbv beta. intros ry Ky. apply sound_ret; [now split|].
  intros sg Hy Hx Hc Bs bs D c Hbs ED (x & y & [A1 A2] & C & EQ). destruct (onehot_ind lb m Hlb Hlb2 n k HE1 HE2 bs) as (j & Hj & Ej).
  unfold MsmProofs2.binds in Hbs. rewrite Hbs in Hc. fold (zb bs) in Ej. rewrite <- Ej, Nat2Z.id in ED. rewrite <- Hc in Hj.
  assert (X : forall (f : ecpt -> crt p), nth_error (map f tab) j = Some (f D)) by (intros f; now apply map_nth_error).
  exists x, y. split; [|split; [|exact EQ]].
  - destruct A1 as (z1 & P1 & B1 & V1), A2 as (z2 & P2 & B2 & V2). split; [exists z1|exists z2]; (split; [|split; assumption]).
    + exact (Hx j (px D) z1 Hj (X px) P1).
    + exact (Hy j (py D) z2 Hj (X py) P2).
  - exact (Hx j (px D) (val x) Hj (X px) C).
Qed.

(** ** strict additions *)
Lemma g_add_ss P Q : shape P -> shape Q -> sound (ec_add_unequal lb m ch (Strict P) (Strict Q) true) shape
  (fun sg R => forall Bs c d, Forall onc Bs -> gst Bs (avs sg) P c -> gst Bs (avs sg) Q d -> gat Bs (avs sg) R (fun j => c j + d j)).
Proof.
  intros KP KQ. eapply sound_weaken; [apply (C54_add_unequal_sound p m lb Hp Hlb Hlb2 Hm H3 n k ch HN HK HE1 HE2 (Strict P) (Strict Q) true KP KQ)|auto|cbv beta].
  intros sg R _ H Bs c d HB (x1 & y1 & A1 & C1 & E1) (x2 & y2 & A2 & C2 & E2). destruct (H x1 y1 x2 y2 (conj A1 C1) (conj A2 C2) ltac:(discriminate)) as (_ & x3 & y3 & A3 & E3).
  exists x3, y3. split; auto. now rewrite (lcf_add m Hm H3 b Hb Bs HB), E1, E2.
Qed.
Lemma g_add_ns P Q : shape P -> shape Q -> sound (ec_add_unequal lb m ch (NonStrict P) (Strict Q) true) shape
  (fun sg R => forall Bs c d, Forall onc Bs -> gat Bs (avs sg) P c -> gst Bs (avs sg) Q d -> gat Bs (avs sg) R (fun j => c j + d j)).
Proof.
  intros KP KQ. eapply sound_weaken; [apply (C54_add_unequal_sound p m lb Hp Hlb Hlb2 Hm H3 n k ch HN HK HE1 HE2 (NonStrict P) (Strict Q) true KP KQ)|auto|cbv beta].
  intros sg R _ H Bs c d HB (x1 & y1 & A1 & E1) (x2 & y2 & A2 & C2 & E2). destruct (H x1 y1 x2 y2 A1 (conj A2 C2) ltac:(discriminate)) as (_ & x3 & y3 & A3 & E3).
  exists x3, y3. split; auto. now rewrite (lcf_add m Hm H3 b Hb Bs HB), E1, E2.
Qed.

(** ** the bucket of a clump *)
Lemma g_pip_step point inf prev : shape point -> shape prev ->
  sound (pip_step lb m ch point inf prev) shape
    (fun sg R => forall Bs c i g x y, Forall onc Bs -> nth_error Bs i = Some g -> gst Bs (avs sg) prev c ->
       at_pt (avs sg) point x y -> canonical m n (avs sg) (px point) x ->
       (g = None /\ avs sg inf = F1 \/ g = Some (x, y) /\ avs sg inf = F0) -> gst Bs (avs sg) R (fun j => c j + unit_at i j)).
Proof.
  intros KQ KP. unfold pip_step.
  eapply sound_bind; [apply (C54_add_unequal_sound p m lb Hp Hlb Hlb2 Hm H3 n k ch HN HK HE1 HE2 (Strict prev) (Strict point) true KP KQ)|]. intros np Knp.
  eapply sound_bind; [apply (proj1 (C56_select p m lb Hp Hlb Hlb2 H3 n k HE1 HE2 prev np inf KP Knp))|]. intros np2 Knp2.
  eapply sound_weaken; [apply (g_strict p m lb Hp Hlb Hlb2 H3 n k ch HN HK HE1 HE2 np2 Knp2)|auto|cbv beta].
  intros sg np3 _ HS HSel HAdd Bs c i g x y HB Hi (x1 & y1 & A1 & C1 & E1) Aq Cq HI.
  destruct (HAdd x1 y1 x y (conj A1 C1) (conj Aq Cq) ltac:(discriminate)) as (_ & x3 & y3 & A3 & E3).
  destruct (HSel x1 y1 x3 y3 A1 A3) as [S1 S0].
  destruct HI as [[-> EI]|[-> EI]].
  - destruct (HS x1 y1 (S1 EI)) as [B1 B2]. exists x1, y1. split; auto. split; auto. rewrite <- E1. apply (lcf_ext m). intros j B EB.
    unfold unit_at. destruct (Nat.eqb_spec j i) as [->|]; [left; pose proof (eq_trans (eq_sym Hi) EB) as E0; injection E0 as <-; reflexivity|right; lia].
  - destruct (HS x3 y3 (S0 EI)) as [B1 B2]. exists x3, y3. split; auto. split; auto.
    now rewrite (lcf_add m Hm H3 b Hb Bs HB), E1, (lcf_unit m Bs i _ Hi).
Qed.
Definition tabl (Bs : list pt) (e : env (p:=p)) (tab : list ecpt) (base : nat -> Z) (a i : nat) : Prop :=
  forall bs D, length bs = i -> nth_error tab (Z.to_nat (zb bs)) = Some D -> gst Bs e D (fun j => base j + bsum a bs j).
Lemma g_bucket : forall points i bucket, length bucket = (2 ^ i)%nat -> Forall shape bucket -> Forall shape points ->
  sound (pip_bucket lb m ch i bucket points) (fun R => length R = (2 ^ (i + length points))%nat /\ Forall shape R)
    (fun sg R => forall Bs base a gs, Forall onc Bs -> tabl Bs (avs sg) bucket base a i -> Forall2 (pin (avs sg)) points gs ->
       (forall t g, nth_error gs t = Some g -> nth_error Bs (a + i + t) = Some g) -> tabl Bs (avs sg) R base a (i + length points)).
Proof.
  induction points as [|P ps IH]; intros i bucket Lb Kb Kp; cbn [pip_bucket].
  - apply sound_ret; cbn [length]; rewrite Nat.add_0_r; auto.
  - inversion Kp as [|? ? KP Kps]; subst.
    eapply sound_bind; [apply (proj1 (C52_tests_sound p m lb Hp Hlb Hlb2 Hm n k ch HN HK (py P) (py P) (proj2 KP) (proj2 KP)))|]. intros inf _.
    eapply sound_bind; [apply (g_strict p m lb Hp Hlb Hlb2 H3 n k ch HN HK HE1 HE2 P KP)|]. intros P' KP'.
    rewrite firstn_all2 by lia.
    eapply sound_bind.
    { apply (sound_mapM lb _ (fun _ R => shape R) (fun sg prev R => forall Bs c i g x y, Forall onc Bs -> nth_error Bs i = Some g -> gst Bs (avs sg) prev c ->
       at_pt (avs sg) P' x y -> canonical m n (avs sg) (px P') x ->
       (g = None /\ avs sg inf = F1 \/ g = Some (x, y) /\ avs sg inf = F0) -> gst Bs (avs sg) R (fun j => c j + unit_at i j))).
      intros prev Hin. apply g_pip_step; auto. rewrite Forall_forall in Kb. auto. }
    cbv beta. intros news HNs. pose proof (Forall2_len _ _ _ HNs) as Ln.
    assert (Kn : Forall shape news). { clear - HNs. induction HNs; constructor; auto. }
    replace (i + length (P :: ps))%nat with (S i + length ps)%nat by (cbn [length]; lia).
    eapply sound_weaken; [apply (IH (S i) (bucket ++ news))|auto|cbv beta].
    + rewrite app_length. cbn [Nat.pow]. lia.
    + apply Forall_app. now split.
    + exact Kps.
    + intros sg R _ HR HNew HP' HZ Bs base a gs HB HT H2 Hnth. inversion H2 as [|? g ? gs' Hin H2']; subst.
      apply (HR Bs base a gs' HB); [|exact H2'|].
      2:{ intros t g' Et. replace (a + S i + t)%nat with (a + i + S t)%nat by lia. now apply Hnth. }
      assert (Hi : nth_error Bs (a + i) = Some g) by (rewrite <- (Nat.add_0_r (a + i)); now apply Hnth).
      assert (HG : exists x y, at_pt (avs sg) P' x y /\ canonical m n (avs sg) (px P') x /\ (g = None /\ avs sg inf = F1 \/ g = Some (x, y) /\ avs sg inf = F0)).
      { destruct g as [[x y]|]; cbn in Hin.
        - destruct Hin as [A Ny]. destruct (HP' x y A) as [A' C']. destruct (HZ y (proj2 A)) as [_ Z']. apply Fis0_false in Ny. rewrite Ny in Z'. exists x, y. auto.
        - destruct (HP' F0 F0 Hin) as [A' C']. destruct (HZ F0 (proj2 Hin)) as [_ Z']. rewrite (proj2 (Fis0_true _ F0) eq_refl) in Z'. exists F0, F0. auto. }
      destruct HG as (x & y & A' & C' & HI).
      intros bs D Lbs ED. destruct (exists_last (l:=bs)) as (bs' & x0 & ->); [destruct bs; [discriminate|congruence]|].
      rewrite app_length in Lbs. cbn in Lbs. assert (L' : length bs' = i) by lia. rewrite zb_snoc, L' in ED.
      pose proof (zb_bound bs') as Bd. rewrite L' in Bd.
      assert (Lz : (Z.to_nat (zb bs') < length bucket)%nat).
      { rewrite Lb. apply Nat2Z.inj_lt. rewrite Z2Nat.id, Nat2Z.inj_pow by lia. exact (proj2 Bd). }
      destruct x0; cbn [Z.b2z] in ED.
      * assert (EI : Z.to_nat (zb bs' + 2 ^ Z.of_nat i * 1) = (length bucket + Z.to_nat (zb bs'))%nat).
        { rewrite Lb, Z.mul_1_r, Z2Nat.inj_add, Nat.add_comm by lia. f_equal. apply Nat2Z.inj. rewrite Z2Nat.id, Nat2Z.inj_pow by lia. reflexivity. }
        rewrite EI, nth_error_app2 in ED by lia. replace (length bucket + Z.to_nat (zb bs') - length bucket)%nat with (Z.to_nat (zb bs')) in ED by lia.
        destruct (nth_error bucket (Z.to_nat (zb bs'))) as [prev|] eqn:Epr; [|apply nth_error_None in Epr; lia].
        destruct (Forall2_nth_l _ _ _ HNew _ _ Epr) as (D' & ED' & HD). rewrite ED in ED'. injection ED' as <-.
        eapply gst_ext; [|apply (HD Bs _ _ g x y HB Hi (HT bs' prev L' Epr) A' C' HI)]. intros j B _. right. cbv beta. rewrite bsum_app, L'. cbn [bsum Z.b2z]. lia.
      * rewrite Z.mul_0_r, Z.add_0_r, nth_error_app1 in ED by lia.
        eapply gst_ext; [|apply (HT bs' D L' ED)]. intros j B _. right. cbv beta. rewrite bsum_app. cbn [bsum Z.b2z]. lia.
Qed.
Lemma g_round c columns round clump any : shape any -> Forall shape clump ->
  sound (pip_round lb m ch c columns round clump any) (fun row => Forall2 (fun _ R => shape R) columns row)
    (fun sg row => forall Bs base a gs, Forall onc Bs -> gat Bs (avs sg) any base -> Forall2 (pin (avs sg)) clump gs ->
       (forall t g, nth_error gs t = Some g -> nth_error Bs (a + t) = Some g) ->
       Forall2 (fun col R => forall cb, binds sg col cb ->
          gst Bs (avs sg) R (fun j => base j + bsum a (firstn (length clump) (skipn (round * c) cb)) j)) columns row).
Proof.
  intros Ka Kc. unfold pip_round.
  eapply sound_bind; [apply (g_strict' p m lb Hp Hlb Hlb2 H3 n k ch HN HK HE1 HE2 any Ka)|]. intros any' Ka'.
  eapply sound_bind; [apply (g_bucket clump 0 [any'] eq_refl); [constructor; [exact Ka'|constructor]|exact Kc]|]. cbv beta. intros bucket [Lb Kb].
  eapply sound_weaken.
  - apply (sound_mapM lb _ (fun _ R => shape R) (fun sg col R => forall Bs base a, tabl Bs (avs sg) bucket base a (length clump) -> forall cb, binds sg col cb ->
          gst Bs (avs sg) R (fun j => base j + bsum a (firstn (length clump) (skipn (round * c) cb)) j))).
    intros col _. apply sound_lift_bind. intros sel Es.
    eapply sound_weaken; [apply (g_ssel bucket sel Kb)|auto|cbv beta]. intros sg R _ HS Bs base a HT cb Hcb.
    destruct (binds_slice p sg col cb _ _ sel Hcb Es) as (B1 & B2 & B3). replace (round * c + length clump - round * c)%nat with (length clump) in B1 by lia.
    set (bsel := firstn _ (skipn _ cb)) in *.
    assert (Lsel : length bsel = length clump).
    { unfold bsel. rewrite firstn_length, skipn_length. apply binds_len in Hcb. lia. }
    pose proof (zb_bound bsel) as Bd. rewrite Lsel in Bd.
    destruct (nth_error bucket (Z.to_nat (zb bsel))) as [D|] eqn:ED.
    + exact (HS Bs bsel D _ B1 ED (HT bsel D Lsel ED)).
    + apply nth_error_None in ED. exfalso. rewrite Lb in ED. apply Nat2Z.inj_le in ED. rewrite Z2Nat.id, Nat2Z.inj_pow in ED by lia. cbn [Nat.add] in ED. change (Z.of_nat 2) with 2 in ED. lia.
  - auto.
  - cbv beta. intros sg row _ HM HB' HA Bs base a gs HB Hany H2 Hnth.
    assert (HT : tabl Bs (avs sg) bucket base a (length clump)).
    { apply (HB' Bs base a gs HB); auto.
      - intros bs D Lbs ED. destruct bs; [|discriminate]. cbn in ED. injection ED as <-. eapply gst_ext; [|apply (HA Bs base Hany)]. intros j B _. right. cbn. lia.
      - intros t g Et. rewrite Nat.add_0_r. auto. }
    clear - HM HT. induction HM; constructor; auto.
Qed.

(** ** columns: the rounds added up *)
Lemma g_agg_loop i rows : forall acc, shape acc -> Forall (Forall shape) rows ->
  sound (foldM (pip_agg_step lb m ch i) rows acc) shape
    (fun sg R => forall Bs c ds, Forall onc Bs -> gst Bs (avs sg) acc c ->
       Forall2 (fun row d => exists mp, nth_error row i = Some mp /\ gst Bs (avs sg) mp d) rows ds -> gst Bs (avs sg) R (fun j => c j + sumd ds j)).
Proof.
  induction rows as [|row rows IH]; intros acc Ka HF; cbn [foldM].
  - apply sound_ret; auto. intros sg Bs c ds _ Hc H2. inversion H2. eapply gst_ext; [|exact Hc]. intros j B _. right. cbn. lia.
  - inversion HF as [|? ? Krow HF']; subst. unfold pip_agg_step at 1. apply (sound_assoc' p lb). apply sound_lift_bind. intros mp Emp. apply (sound_assoc' p lb).
    assert (Kmp : shape mp) by (rewrite Forall_forall in Krow; apply Krow; eapply nth_error_In; exact Emp).
    eapply sound_bind; [apply (g_add_ss acc mp Ka Kmp)|]. intros a1 Ka1.
    eapply sound_bind; [apply (g_strict' p m lb Hp Hlb Hlb2 H3 n k ch HN HK HE1 HE2 a1 Ka1)|]. intros a2 Ka2.
    eapply sound_weaken; [apply (IH a2 Ka2 HF')|auto|cbv beta]. intros sg R _ HR HS HA Bs c ds HB Hc H2. inversion H2 as [|? d ? ds' (mp' & Emp' & Hd) H2']; subst.
    rewrite Emp in Emp'. injection Emp' as <-.
    eapply gst_ext; [|apply (HR Bs _ ds' HB (HS Bs _ (HA Bs c d HB Hc Hd)) H2')]. intros j B _. right. cbn [sumd fold_right]. unfold sumd. cbv beta. lia.
Qed.
Lemma g_agg rows i : Forall (Forall shape) rows ->
  sound (pip_agg lb m ch rows i) shape
    (fun sg R => forall Bs ds, Forall onc Bs -> Forall2 (fun row d => exists mp, nth_error row i = Some mp /\ gst Bs (avs sg) mp d) rows ds -> gst Bs (avs sg) R (sumd ds)).
Proof.
  intros HF. unfold pip_agg. apply sound_lift_bind. intros row0 E0. apply sound_lift_bind. intros acc Ea.
  destruct rows as [|row rows]; [discriminate|]. injection E0 as ->. inversion HF as [|? ? Krow HF']; subst. cbn [skipn].
  assert (Ka : shape acc) by (rewrite Forall_forall in Krow; apply Krow; eapply nth_error_In; exact Ea).
  eapply sound_weaken; [apply (g_agg_loop i rows acc Ka HF')|auto|cbv beta]. intros sg R _ HR Bs ds HB H2. inversion H2 as [|? d ? ds' (mp & Emp & Hd) H2']; subst.
  rewrite Ea in Emp. injection Emp as <-. eapply gst_ext; [|apply (HR Bs d ds' HB Hd H2')]. intros j B _. now right.
Qed.

(** ** the final loop *)
Definition hor (ds : list (nat -> Z)) (c : nat -> Z) (j : nat) : Z := fold_left (fun a (d : nat -> Z) => 2 * a + d j) ds (c j).
Lemma hor_ext ds : forall c d j, c j = d j -> hor ds c j = hor ds d j.
Proof. intros c d j E. unfold hor. now rewrite E. Qed.
Lemma g_horner gsl : forall st, shape (fst st) -> shape (snd st) -> Forall shape gsl ->
  sound (foldM (pip_horner lb m ch) gsl st) (fun st => shape (fst st) /\ shape (snd st))
    (fun sg R => forall Bs ca c ds, Forall onc Bs -> gat Bs (avs sg) (fst st) ca -> gat Bs (avs sg) (snd st) c -> Forall2 (gst Bs (avs sg)) gsl ds ->
       gat Bs (avs sg) (fst R) (fun j => 2 ^ Z.of_nat (length gsl) * ca j) /\ gat Bs (avs sg) (snd R) (hor ds c)).
Proof.
  induction gsl as [|g gsl IH]; intros [A Su] KA KS HF; cbn [foldM fst snd] in *.
  - apply sound_ret; [auto|]. intros sg Bs ca c ds _ Ha Hc H2. inversion H2. split; [|exact Hc]. eapply gat_ext; [|exact Ha]. intros j B _. right. cbn [length fst snd]. change (2 ^ Z.of_nat 0) with 1. lia.
  - inversion HF as [|? ? Kg HF']; subst. unfold pip_horner at 1. cbn [fst snd].
    apply (sound_assoc' p lb). eapply sound_bind; [apply (g_double p m lb Hp Hlb Hlb2 Hm H3 n k ch HN HK HE1 HE2 b Hb A KA)|]. intros A1 KA1.
    apply (sound_assoc' p lb). eapply sound_bind; [apply (g_double p m lb Hp Hlb Hlb2 Hm H3 n k ch HN HK HE1 HE2 b Hb Su KS)|]. intros S1 KS1.
    apply (sound_assoc' p lb). eapply sound_bind; [apply (g_add_ns S1 g KS1 Kg)|]. intros S2 KS2.
    match goal with |- Logic.sound _ (bind (ret ?x) ?g) ?P ?Q => change (Logic.sound lb (g x) P Q) end. cbv beta.
    eapply sound_weaken; [apply (IH (A1, S2) KA1 KS2 HF')|auto|cbv beta]. cbn [fst snd].
    intros sg R _ HR HAdd HD2 HD1 Bs ca c ds HB Ha Hc H2. inversion H2 as [|? d ? ds' Hd H2']; subst.
    destruct (HR Bs _ _ ds' HB (HD1 Bs ca HB Ha) (HAdd Bs _ d HB (HD2 Bs c HB Hc) Hd) H2') as [R1 R2]. split.
    + eapply gat_ext; [|exact R1]. intros j B _. right. cbn [length]. rewrite Nat2Z.inj_succ, Z.pow_succ_r by lia. ring.
    + eapply gat_ext; [|exact R2]. intros j B _. right. unfold hor. cbn [fold_left]. f_equal. ring.
Qed.

(** ** the bits *)
Lemma g_pip_bits mb len0 (scalar : list (AV p)) : length scalar = len0 ->
  sound (pip_scalar_bits mb len0 scalar) (fun bl => length bl = (mb * len0)%nat)
    (fun sg bl => exists bs ts, binds sg bl bs /\ Forall2 (chunk_of mb sg) scalar ts /\ zb bs = undigits mb ts).
Proof.
  intros <-. unfold pip_scalar_bits. rewrite firstn_all. eapply sound_bind.
  - apply (sound_mapM lb _ (fun _ o => length o = mb /\ (0 < mb)%nat) (fun sg s o => exists bs, binds sg o bs /\ chunk_of mb sg s (zb bs))).
    intros s _. apply (g_num_to_bits p m lb Hp Hlb Hlb2 n k HE1 HE2).
  - cbv beta. intros bls HL. apply sound_ret.
    + clear - HL. induction HL as [|x y l l' [E _] _ IH]; cbn [concat length]; [lia|]. rewrite app_length, IH, E. lia.
    + intros sg H2.
      assert (G : exists bss, Forall2 (binds sg) bls bss /\ Forall2 (fun s bs => chunk_of mb sg s (zb bs)) scalar bss).
      { clear - H2. induction H2 as [|x y l l' (bs & B1 & B2) _ (bss & I1 & I2)]; [exists []; split; constructor|]. exists (bs :: bss). split; constructor; auto. }
      destruct G as (bss & G1 & G2). exists (concat bss), (map zb bss).
      assert (LB : Forall (fun l => length l = mb) bss).
      { clear - HL G1. revert bss G1. induction HL as [|x y l l' [E _] _ IH]; intros bss G1; inversion G1; subst; constructor; auto. symmetry. eapply binds_len; eauto. }
      split; [|split].
      * unfold MsmProofs2.binds. rewrite !concat_map. f_equal. clear - G1. induction G1 as [|x y l l' E _ IH]; cbn; [reflexivity|]. now rewrite IH, E.
      * clear - G2. induction G2; cbn; constructor; auto.
      * now apply zb_concat.
Qed.
Lemma column_binds sg (bits : list (list (AV p))) bss t sb : Forall2 (binds sg) bits bss -> Forall (fun l => length l = sb) bits -> (t < sb)%nat ->
  binds sg (pip_column bits t) (map (fun bs => nth t bs false) bss).
Proof.
  intros H2 HF Ht. unfold MsmProofs2.binds in *. induction H2 as [|bl bs bits bss E _ IH]; [reflexivity|]. inversion HF as [|? ? Lbl HF']; subst.
  unfold pip_column. cbn [flat_map]. destruct (nth_error bl t) as [x|] eqn:Ex; [|apply nth_error_None in Ex; lia].
  cbn [app map]. f_equal; [|apply IH; exact HF'].
  apply (map_nth_error (avs sg)) in Ex. rewrite E, nth_error_map in Ex. destruct (nth_error bs t) as [y|] eqn:Ey; [|discriminate].
  cbn in Ex. rewrite (nth_error_nth _ _ _ Ey). congruence.
Qed.
End Pip.

(** ** arithmetic of the coefficients *)
Lemma F2_seq {A B} (R : A -> B -> Prop) (f : nat -> B) (l : list A) : forall s, (forall i x, nth_error l i = Some x -> R x (f (s + i)%nat)) -> Forall2 R l (map f (seq s (length l))).
Proof.
  induction l as [|x l IH]; intros s H; cbn [length seq map]; constructor.
  - rewrite <- (Nat.add_0_r s). now apply H.
  - apply IH. intros i y E. replace (S s + i)%nat with (s + S i)%nat by lia. now apply H.
Qed.
Lemma F2_rev {A B} (R : A -> B -> Prop) l l' : Forall2 R l l' -> Forall2 R (rev l) (rev l').
Proof. induction 1; cbn [rev]; [constructor|]. apply Forall2_app; auto. Qed.
Lemma F2_skipn {A B} (R : A -> B -> Prop) i : forall l l', Forall2 R l l' -> Forall2 R (skipn i l) (skipn i l').
Proof. induction i as [|i IH]; intros l l' H; [exact H|]. inversion H; subst; [constructor|cbn; auto]. Qed.
Lemma F2_firstn {A B} (R : A -> B -> Prop) i : forall l l', Forall2 R l l' -> Forall2 R (firstn i l) (firstn i l').
Proof. induction i as [|i IH]; intros l l' H; [constructor|]. inversion H; subst; cbn; constructor; auto. Qed.
Lemma firstn_plus {A} (l : list A) : forall i j, firstn (i + j) l = firstn i l ++ firstn j (skipn i l).
Proof. induction l as [|x l IH]; intros [|i] j; cbn; try reflexivity; [now rewrite firstn_nil|]. now rewrite IH. Qed.
Lemma nth_error_firstn_Some {A} (l : list A) : forall i t x, nth_error (firstn i l) t = Some x -> nth_error l t = Some x.
Proof. induction l as [|y l IH]; intros [|i] [|t] x E; cbn in *; try discriminate; auto. now apply (IH i). Qed.
Lemma nth_error_skipn' {A} (l : list A) : forall i t, nth_error (skipn i l) t = nth_error l (i + t).
Proof. induction l as [|y l IH]; intros [|i] t; cbn; auto. now destruct t. Qed.
Lemma bsum_nth bs : forall a j, bsum a bs j = if Nat.leb a j then Z.b2z (nth (j - a) bs false) else 0.
Proof.
  induction bs as [|x bs IH]; intros a j; cbn [bsum].
  - destruct (Nat.leb a j); [|reflexivity]. now destruct (j - a)%nat.
  - rewrite IH. unfold unit_at. destruct (Nat.eqb_spec j a) as [->|D].
    + rewrite Nat.leb_refl, Nat.sub_diag. destruct (Nat.leb_spec (S a) a); [lia|]. cbn [nth]. lia.
    + destruct (Nat.leb_spec (S a) j); destruct (Nat.leb_spec a j); try lia. replace (j - a)%nat with (S (j - S a)) by lia. cbn [nth]. lia.
Qed.
Definition round_c (c r : nat) (cb : list bool) (j : nat) : Z := 2 ^ Z.of_nat r * unit_at 0 j + bsum (S (r * c)) (firstn c (skipn (r * c) cb)) j.
Lemma sumd_app l1 l2 j : sumd (l1 ++ l2) j = sumd l1 j + sumd l2 j.
Proof. induction l1 as [|d l1 IH]; [reflexivity|]. unfold sumd in *. cbn [app fold_right]. rewrite IH. lia. Qed.
Lemma sum_rounds c cb j R : sumd (map (fun r => round_c c r cb) (seq 0 R)) j = (2 ^ Z.of_nat R - 1) * unit_at 0 j + bsum 1 (firstn (R * c) cb) j.
Proof.
  induction R as [|R IH]; [cbn; lia|]. rewrite seq_S, map_app, sumd_app, IH. cbn [map Nat.add]. unfold sumd. cbn [fold_right]. unfold round_c.
  replace (S R * c)%nat with (R * c + c)%nat by lia. rewrite firstn_plus, bsum_app, Nat2Z.inj_succ, Z.pow_succ_r by lia.
  destruct (Nat.le_gt_cases (R * c) (length cb)) as [Hle|Hgt].
  - rewrite firstn_length_le by exact Hle. change (1 + R * c)%nat with (S (R * c)). ring.
  - rewrite skipn_all2, firstn_nil by lia. cbn [bsum]. ring.
Qed.
Definition hval (l : list (nat -> Z)) (j : nat) : Z := fold_right (fun (d : nat -> Z) a => 2 * a + d j) 0 l.
Lemma hor_hval l d0 ds j : rev l = d0 :: ds -> hor ds d0 j = hval l j.
Proof.
  intros E. unfold hor, hval. rewrite <- (rev_involutive l), fold_left_rev_right, E. cbn [fold_left]. rewrite Z.mul_0_r. reflexivity.
Qed.
Lemma hval_digits l j : forall bs, map (fun d : nat -> Z => d j) l = map Z.b2z bs -> hval l j = zb bs.
Proof.
  induction l as [|d l IH]; intros [|x bs] E; try discriminate; [reflexivity|]. cbn [map] in E. injection E as E1 E2.
  unfold hval in *. cbn [fold_right]. rewrite (IH bs E2), E1. unfold zb. cbn [map undigits]. change (2 ^ Z.of_nat 1) with 2. lia.
Qed.
Lemma hval_const l j K : Forall (fun d : nat -> Z => d j = K) l -> hval l j = (2 ^ Z.of_nat (length l) - 1) * K.
Proof.
  induction 1 as [|d l E _ IH]; [cbn; lia|]. unfold hval in *. cbn [fold_right length]. rewrite IH, E, Nat2Z.inj_succ, Z.pow_succ_r by lia. ring.
Qed.
Lemma map_nth_seq (bs : list bool) : map (fun t => nth t bs false) (seq 0 (length bs)) = bs.
Proof. induction bs as [|x bs IH]; [reflexivity|]. cbn [length seq map nth]. f_equal. rewrite <- seq_shift, map_map. cbn. exact IH. Qed.
Lemma clump_bits {A} c x (Ps : list A) (cb : list bool) : length cb = length Ps -> firstn (length (firstn c (skipn x Ps))) (skipn x cb) = firstn c (skipn x cb).
Proof. intros L. rewrite firstn_length, skipn_length, <- L, <- skipn_length, <- firstn_firstn, firstn_all. reflexivity. Qed.
