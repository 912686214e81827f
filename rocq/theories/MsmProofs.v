(** Soundness of [multi_scalar_multiply] (halo2-ecc/src/ecc/mod.rs:636-765): coefficients over a basis of points.
    [gat Bs e P c]: under the cell values [e], [P] holds the affine point [sum_j c j * Bs_j]. *)
From Coq Require Import ZArith Znumtheory Lia List Bool Ring.
From Verif Require Import Field Spec Context ContextProofs Utils Logic Gate GateProofs ChainProofs IPProofs BitProofs PowProofs IPComp Derived Calc CalcH
  Range RangeProofs RangeProofs2 RangeProofs3 BigInt BigSpec BigNum BigPrims BigOps BigSel BigCmp BigSub BigCarry BigMod BigCrtNum BigCrt
  FpChip FpProofs FpProofs2 FpProofs3 FpField FpField2 FpField3 Bn254Primes PropsBigInt PropsFp EcGroup EccFacts SafeTypes Ecc EccProofs EccProofs2 EccProofs3 PropsEcc EcComb SafeProofs2.
Import ListNotations.
Local Open Scope Z_scope.

Section Msm.
Context (p m : positive) (lb : nat) (Hp : prime (Z.pos p)) (Hlb : (1 <= lb < 64)%nat) (Hlb2 : (2 * lb <= CAPACITY p)%nat) (Hm : prime (Z.pos m)) (H3 : 3 < Z.pos m).
Context (n k : nat) (ch : fpchip p) (HN : fpchip_new m n k = Some ch) (HK : fp_params (p:=p) lb m n k).
Notation M2 := (2 ^ Z.of_nat (bits (Z.pos m))).
Context (HE1 : (Nat.max (log2_ceil (Z.of_nat k) + 2 * n + 5) (2 * n + bit_length (Z.of_nat k)) + lb + 2 <= CAPACITY p)%nat)
  (HE2 : 64 * (M2 * M2) < 2 ^ Z.of_nat (n * k + NUM_BITS p)).
Context (b : F m) (Hb : b <> F0).
Notation ecpt := (ecpt p).
Notation at_pt := (at_pt (p:=p) m n).
Notation at_cmp := (at_cmp (p:=p) m n).
Notation shape := (shape (p:=p) n k).
Notation onc2 := (onc2 m b).
Notation onc := (onc m b).
Notation eadd := (eadd m).
Notation eneg := (eneg m).
Notation lcf := (lcf m).
Notation pt := (pt m).
Notation sound := (sound lb).
Let Hm1 : 1 < Z.pos m. Proof. lia. Qed.

Definition gat (Bs : list pt) (e : env (p:=p)) (P : ecpt) (c : nat -> Z) : Prop := exists x y, at_pt e P x y /\ lcf c Bs = Some (x, y).
Definition gst (Bs : list pt) (e : env (p:=p)) (P : ecpt) (c : nat -> Z) : Prop := exists x y, at_pt e P x y /\ canonical m n e (px P) x /\ lcf c Bs = Some (x, y).
Lemma gst_gat Bs e P c : gst Bs e P c -> gat Bs e P c.
Proof. intros (x & y & A & _ & B). now exists x, y. Qed.
Lemma gat_ext Bs e P c d : (forall j B, nth_error Bs j = Some B -> B = None \/ c j = d j) -> gat Bs e P c -> gat Bs e P d.
Proof. intros H (x & y & A & B). exists x, y. split; auto. now rewrite <- (lcf_ext m Bs c d H). Qed.
Lemma gst_ext Bs e P c d : (forall j B, nth_error Bs j = Some B -> B = None \/ c j = d j) -> gst Bs e P c -> gst Bs e P d.
Proof. intros H (x & y & A & A' & B). exists x, y. split; auto. split; auto. now rewrite <- (lcf_ext m Bs c d H). Qed.

Lemma g_add P Q : shape P -> shape Q -> sound (ec_add_unequal lb m ch (NonStrict P) (NonStrict Q) true) shape
  (fun sg R => forall Bs c d, Forall onc Bs -> gat Bs (avs sg) P c -> gat Bs (avs sg) Q d -> gat Bs (avs sg) R (fun j => c j + d j)).
Proof.
  intros KP KQ. eapply sound_weaken; [apply (C54_add_unequal_sound p m lb Hp Hlb Hlb2 Hm H3 n k ch HN HK HE1 HE2 (NonStrict P) (NonStrict Q) true KP KQ)|auto|cbv beta].
  intros sg R _ H Bs c d HB (x1 & y1 & A1 & E1) (x2 & y2 & A2 & E2). destruct (H x1 y1 x2 y2 A1 A2 ltac:(discriminate)) as (_ & x3 & y3 & A3 & E3).
  exists x3, y3. split; auto. now rewrite (lcf_add m Hm H3 b Hb Bs HB), E1, E2.
Qed.
Lemma g_sub P Q : shape P -> shape Q -> sound (ec_sub_unequal lb m ch (NonStrict P) (NonStrict Q) true) shape
  (fun sg R => forall Bs c d, Forall onc Bs -> gat Bs (avs sg) P c -> gat Bs (avs sg) Q d -> gat Bs (avs sg) R (fun j => c j + - d j)).
Proof.
  intros KP KQ. eapply sound_weaken; [apply (C54_sub_unequal_sound p m lb Hp Hlb Hlb2 Hm H3 n k ch HN HK HE1 HE2 (NonStrict P) (NonStrict Q) true KP KQ)|auto|cbv beta].
  intros sg R _ H Bs c d HB (x1 & y1 & A1 & E1) (x2 & y2 & A2 & E2). destruct (H x1 y1 x2 y2 A1 A2 ltac:(discriminate)) as (_ & x3 & y3 & A3 & E3).
  exists x3, y3. split; auto. now rewrite (lcf_add m Hm H3 b Hb Bs HB c (fun j => - d j)), (lcf_opp m Hm H3 b Hb Bs HB), E1, E2.
Qed.
Lemma g_double P : shape P -> sound (ec_double lb m ch P) shape
  (fun sg R => forall Bs c, Forall onc Bs -> gat Bs (avs sg) P c -> gat Bs (avs sg) R (fun j => c j + c j)).
Proof.
  intros KP. eapply sound_weaken; [apply (C54_double_sound p m lb Hp Hlb Hlb2 Hm H3 n k ch HN HK HE1 HE2 b Hb P KP)|auto|cbv beta].
  intros sg R _ H Bs c HB (x1 & y1 & A1 & E1). pose proof (lcf_onc m Hm H3 b Bs HB c) as O. rewrite E1 in O. destruct (H x1 y1 A1 O) as (_ & x3 & y3 & A3 & E3).
  exists x3, y3. split; auto. now rewrite (lcf_add m Hm H3 b Hb Bs HB), E1.
Qed.
Lemma g_strict P : shape P -> sound (into_strict_point lb ch P) shape
  (fun sg R => forall x y, at_pt (avs sg) P x y -> at_pt (avs sg) R x y /\ canonical m n (avs sg) (px R) x).
Proof.
  intros KP. pose proof (l_into_strict lb m Hp Hlb Hlb2 Hm1 ch n k HN HK (ccells (px P) ++ ccells (py P)) (fun _ => True) False P (ppre1 p P) KP ltac:(tauto)) as H.
  eapply sound_weaken; [apply (h_sound lb _ _ _ _ _ H)|cbv beta|cbv beta]; auto.
  - intros a ->. exact KP.
  - intros sg a _ R x y A. apply at_pred in A. destruct (R False x y A) as [R1 R2]. split; [now apply (pred_at p m n False)|]. eapply fcan_canonical; [exact Hm1|exact R2].
Qed.
Lemma g_strict' P : shape P -> sound (into_strict_point lb ch P) shape
  (fun sg R => forall Bs c, gat Bs (avs sg) P c -> gst Bs (avs sg) R c).
Proof.
  intros KP. eapply sound_weaken; [apply (g_strict P KP)|auto|cbv beta]. intros sg R _ H Bs c (x & y & A & E). destruct (H x y A) as [H1 H2]. now exists x, y.
Qed.

(** the doublings of the random point *)
Lemma g_chain l : forall P, shape P -> sound (double_chain lb m ch l P) (fun ds => length ds = l /\ Forall shape ds)
  (fun sg ds => forall Bs c, Forall onc Bs -> gat Bs (avs sg) P c ->
     forall i D, nth_error ds i = Some D -> gat Bs (avs sg) D (fun j => 2 ^ Z.of_nat (S i) * c j)).
Proof.
  induction l as [|l IH]; intros P KP; cbn [double_chain].
  - apply sound_ret; [split; auto|]. intros sg Bs c _ _ i D E. destruct i; discriminate.
  - eapply sound_bind; [apply (g_double P KP)|]. intros d Kd. eapply sound_bind; [apply (IH d Kd)|]. intros ds [Lds Kds].
    apply sound_ret; [split; [cbn; lia|now constructor]|]. intros sg HDs HD Bs c HB HP [|i] D E.
    + injection E as <-. eapply gat_ext; [|apply (HD Bs c HB HP)]. intros j B _. right. lia.
    + cbn in E. eapply gat_ext; [|apply (HDs Bs _ HB (HD Bs c HB HP) i D E)]. intros j B _. right.
      rewrite (Nat2Z.inj_succ (S i)), (Z.pow_succ_r 2 (Z.of_nat (S i))) by lia. ring.
Qed.
Lemma g_double_n l : forall P, shape P -> sound (double_n lb m ch l P) shape
  (fun sg R => forall Bs c, Forall onc Bs -> gat Bs (avs sg) P c -> gat Bs (avs sg) R (fun j => 2 ^ Z.of_nat l * c j)).
Proof.
  induction l as [|l IH]; intros P KP; cbn [double_n].
  - apply sound_ret; auto. intros sg Bs c _ H. eapply gat_ext; [|exact H]. intros j B _. right. cbn. destruct (c j); reflexivity.
  - eapply sound_bind; [apply (g_double P KP)|]. intros d Kd. eapply sound_weaken; [apply (IH d Kd)|auto|cbv beta].
    intros sg R _ HR HD Bs c HB HP. eapply gat_ext; [|apply (HR Bs _ HB (HD Bs c HB HP))]. intros j B _. right.
    rewrite (Nat2Z.inj_succ l), Z.pow_succ_r by lia. ring.
Qed.

(** an input point: a finite point of the curve with y <> 0, or (0, 0) for infinity *)
Definition pin (e : env (p:=p)) (P : ecpt) (g : pt) : Prop :=
  match g with None => at_pt e P F0 F0 | Some (x, y) => at_pt e P x y /\ y <> F0 end.
Lemma g_cache_loop l : forall prev point inf, shape prev -> shape point ->
  sound (cache_loop lb m ch l prev point inf) (fun ds => length ds = l /\ Forall shape ds)
    (fun sg ds => forall Bs c i g x y, Forall onc Bs -> nth_error Bs i = Some g -> gst Bs (avs sg) prev c ->
       at_pt (avs sg) point x y -> canonical m n (avs sg) (px point) x ->
       (g = None /\ avs sg inf = F1 \/ g = Some (x, y) /\ avs sg inf = F0) ->
       forall d D, nth_error ds d = Some D -> gst Bs (avs sg) D (fun j => c j + Z.of_nat (S d) * unit_at i j)).
Proof.
  induction l as [|l IH]; intros prev point inf KP KQ; cbn [cache_loop].
  - apply sound_ret; [split; auto|]. intros sg Bs c i g x y _ _ _ _ _ _ [|d] D E; discriminate.
  - eapply sound_bind; [apply (C54_add_unequal_sound p m lb Hp Hlb Hlb2 Hm H3 n k ch HN HK HE1 HE2 (Strict prev) (Strict point) true KP KQ)|]. intros np Knp.
    eapply sound_bind; [apply (proj1 (C56_select p m lb Hp Hlb Hlb2 H3 n k HE1 HE2 prev np inf KP Knp))|]. intros np2 Knp2.
    eapply sound_bind; [apply (g_strict np2 Knp2)|]. intros np3 Knp3.
    eapply sound_bind; [apply (IH np3 point inf Knp3 KQ)|]. intros rest [Lr Kr].
    apply sound_ret; [split; [cbn; lia|now constructor]|].
    intros sg HR HS HSel HAdd Bs c i g x y HB Hi (x1 & y1 & A1 & C1 & E1) Aq Cq HI.
    destruct (HAdd x1 y1 x y (conj A1 C1) (conj Aq Cq) ltac:(discriminate)) as (_ & x3 & y3 & A3 & E3).
    destruct (HSel x1 y1 x3 y3 A1 A3) as [S1 S0].
    assert (G : gst Bs (avs sg) np3 (fun j => c j + unit_at i j)).
    { destruct HI as [[-> EI]|[-> EI]].
      - destruct (HS x1 y1 (S1 EI)) as [B1 B2]. exists x1, y1. split; auto. split; auto. rewrite <- E1. apply (lcf_ext m). intros j B EB.
        unfold unit_at. destruct (Nat.eqb_spec j i) as [->|]; [left; pose proof (eq_trans (eq_sym Hi) EB) as E0; injection E0 as <-; reflexivity|right; lia].
      - destruct (HS x3 y3 (S0 EI)) as [B1 B2]. exists x3, y3. split; auto. split; auto.
        now rewrite (lcf_add m Hm H3 b Hb Bs HB), E1, (lcf_unit m Bs i _ Hi). }
    intros [|d] D E.
    + injection E as <-. eapply gst_ext; [|exact G]. intros j B _. right. lia.
    + cbn in E. eapply gst_ext; [|apply (HR Bs _ i g x y HB Hi G Aq Cq HI d D E)]. intros j B _. right. cbv beta. rewrite (Nat2Z.inj_succ (S d)). ring.
Qed.

(** the table of one point: entry [d] is [base + d * Bs_i] *)
Definition table (Bs : list pt) (e : env (p:=p)) (ds : list ecpt) (base : nat -> Z) (i : nat) : Prop :=
  forall d D, nth_error ds d = Some D -> gat Bs e D (fun j => base j + Z.of_nat d * unit_at i j).
Lemma g_cache_point rsv w idx P : Forall shape rsv -> shape P ->
  sound (cache_point lb m ch rsv w idx P) (fun ds => length ds = (2 ^ w)%nat /\ Forall shape ds)
    (fun sg ds => forall Bs c1 c2 i g r1 r2, Forall onc Bs -> nth_error Bs i = Some g -> pin (avs sg) P g ->
       nth_error rsv idx = Some r1 -> nth_error rsv (idx + w) = Some r2 -> gat Bs (avs sg) r1 c1 -> gat Bs (avs sg) r2 c2 ->
       table Bs (avs sg) ds (fun j => c1 j + - c2 j) i).
Proof.
  intros Kr KP. unfold cache_point.
  eapply sound_bind; [apply (proj1 (C52_tests_sound p m lb Hp Hlb Hlb2 Hm n k ch HN HK (py P) (py P) (proj2 KP) (proj2 KP)))|]. intros inf _.
  apply sound_lift_bind. intros r1 E1. apply sound_lift_bind. intros r2 E2.
  rewrite Forall_forall in Kr.
  eapply sound_bind; [apply (g_sub r1 r2); apply Kr; eapply nth_error_In; eassumption|]. intros nm Knm.
  eapply sound_bind; [apply (g_strict P KP)|]. intros P' KP'.
  eapply sound_bind; [apply (g_strict' nm Knm)|]. intros nm' Knm'.
  eapply sound_bind; [apply (g_cache_loop (2 ^ w - 1) nm' P' inf Knm' KP')|]. intros rest [Lr KR].
  apply sound_ret. { split; [cbn; pose proof (Nat.pow_nonzero 2 w); lia|now constructor]. }
  intros sg HL HN' HP' HS HZ Bs c1 c2 i g r1' r2' HB Hi Hin F1' F2' G1 G2. rewrite E1 in F1'. rewrite E2 in F2'. injection F1' as <-. injection F2' as <-.
  pose proof (HN' Bs _ (HS Bs c1 c2 HB G1 G2)) as G.
  intros [|d] D E.
  - injection E as <-. apply gst_gat in G. eapply gat_ext; [|exact G]. intros j B _. right. lia.
  - cbn in E. apply gst_gat. destruct g as [[x y]|]; cbn in Hin.
    + destruct Hin as [A Ny]. destruct (HP' x y A) as [A' C']. destruct (HZ y (proj2 A)) as [_ Z']. apply Fis0_false in Ny. rewrite Ny in Z'.
      exact (HL Bs _ i (Some (x, y)) x y HB Hi G A' C' (or_intror (conj eq_refl Z')) d D E).
    + destruct (HP' F0 F0 Hin) as [A' C']. destruct (HZ F0 (proj2 Hin)) as [_ Z']. rewrite (proj2 (Fis0_true _ F0) eq_refl) in Z'.
      exact (HL Bs _ i None F0 F0 HB Hi G A' C' (or_introl (conj eq_refl Z')) d D E).
Qed.
End Msm.
