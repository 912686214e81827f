(** The hypotheses of C83 and C84 are met by BN254's generators: examples beside the theorems. *)
From Coq Require Import ZArith NArith Znumtheory Lia List Bool Ring.
From Verif Require Import EcGroup PropsEcc PropsMsm Ec2Group.
From Verif Require Import Field Spec Context ContextProofs Utils Logic Gate GateProofs ChainProofs IPProofs BitProofs PowProofs IPComp Derived Calc CalcH
  Range RangeProofs RangeProofs2 RangeProofs3 BigInt BigSpec BigNum BigPrims BigOps BigSel BigCmp BigSub BigCarry BigMod BigCrtNum BigCrt
  FpChip FpProofs FpProofs2 FpProofs3 FpField FpField2 FpField3 Pocklington Bn254Primes PropsBigInt PropsFp Ecc PropsNaf FieldExt ExtSpec ExtSpec2 ExtProofs ExtProofs2 ExtProofs3 ExtProofs4 ExtProofs5 PropsExt PropsExt2
  RingPow CycSpec FrobSpec Cyclo Fp12Field FinalExp GaussOps FinalProofs FinalProofs2 FinalProofs3 FinalHigh PropsFinal PropsFinal2 PropsFinal3
  MillerSpec MillerAlg Pairing EccProofs EccProofs3 PairOps PairOps2 PairOps3 PairOps4 PairOps5 Bls BlsAlg PropsPairing PropsPairing2 EccFacts PropsSum EccG2 PairOpsG2 PropsG2.
Import ListNotations.
Local Open Scope Z_scope.

Section InstanceG.
Local Open Scope monad_scope.
Local Opaque npow.
Notation lb := 17%nat.
Notation n := 88%nat.
Notation k := 3%nat.
Notation bx := 4965661367192848881.
Notation z := (of_Z bn_q).
Notation X2 := (x2 bn_q).
(** the coefficient of BN254's twist: 3 / (9 + u) *)
Definition bt : X2 := (z 19485874751759354771024239261021720505790618469301721065564631296452457478373, z 266929791119991161246907387137283842545076965332900288569378510910307636690).
Lemma bt_ok : x2_mul bt (z 9, z 1) = (z 3, z 0). Proof. apply x2_eq; vm_compute; reflexivity. Qed.
Lemma bt_n0 : bt <> x2_0. Proof. intros E. apply (f_equal (fun a : X2 => val (fst a))) in E. vm_compute in E. discriminate. Qed.
Lemma G2_on : on_twist bn_q bt G2. Proof. unfold on_twist. apply x2_eq; vm_compute; reflexivity. Qed.
Lemma R2_on : on_twist bn_q bt R2. Proof. unfold on_twist. apply x2_eq; vm_compute; reflexivity. Qed.
Lemma P1_on : on_twist bn_q bt P1. Proof. unfold on_twist. apply x2_eq; vm_compute; reflexivity. Qed.
Lemma R3_chain : chain bn_q R2 [P1] = Some R3. Proof. cbn [chain]. rewrite add_R2. exact eq_refl. Qed.
Lemma R3_R2 : fst R3 <> fst R2. Proof. intros E. apply (f_equal (fun a : X2 => val (fst a))) in E. vm_compute in E. discriminate. Qed.
(** [2 G2 + G2] and, on G1, [2 (1, 2) + (1, 2)] *)
Definition T3 : pt2 (m:=bn_q) := ((z 2725019753478801796453339367788033689375851816420509565303521482350756874229, z 7273165102799931111715871471550377909735733521218303035754523677688038059653), (z 2512659008974376214222774206987427162027254181373325676825515531566330959255, z 957874124722006818841961785324909313781880061366718538693995380805373202866)).
Ltac nz := intros E; apply (f_equal (fun a : X2 => val (fst a))) in E; vm_compute in E; discriminate.
Lemma add_G2 : pt_add R2 G2 = Some T3.
Proof. unfold pt_add. replace (same_x (fst R2) (fst G2)) with false by (vm_compute; reflexivity). apply f_equal. match goal with |- third (x2_mul ?a (x2_inv ?b)) _ _ _ = _ => assert (S : x2_mul a (x2_inv b) = (z 2866671387143057312758457891194409217641192444825929176264257573564190519667, z 3890232258320546922215479227857414964620855826958773252291666032355197288862)) by (apply quot; [nz|apply x2_eq; vm_compute; reflexivity]); rewrite S; clear S end. unfold third, T3. cbv zeta. apply f_equal2; apply x2_eq; vm_compute; reflexivity. Qed.
Lemma T3_chain : chain bn_q R2 [G2] = Some T3. Proof. cbn [chain]. rewrite add_G2. exact eq_refl. Qed.
Lemma T3_R2 : fst T3 <> fst R2. Proof. nz. Qed.
Definition D1 : F bn_q * F bn_q := (z 1368015179489954701390400359078579693043519447331113978918064868415326638035, z 9918110051302171585080402603319702774565515993150576347155970296011118125764).
Definition D3 : F bn_q * F bn_q := (z 3353031288059533942658390886683067124040920775575537747144343083137631628272, z 19321533766552368860946552437480515441416830039777911637913418824951667761761).
Lemma Feq (a b : F bn_q) : val a = val b -> a = b. Proof. apply F_eq. Qed.
Lemma D1_on : EcGroup.onc2 bn_q bn_b (fst D1) (Datatypes.snd D1). Proof. unfold EcGroup.onc2. apply Feq. vm_compute. reflexivity. Qed.
Lemma D1_sums : esums bn_q (fst D1) (Datatypes.snd D1) [(z 1, z 2)] = Some D3.
Proof.
  change (esums bn_q (fst D1) (Datatypes.snd D1) [(z 1, z 2)]) with (if Feqb (fst D1) (z 1) then None else match EcGroup.eadd bn_q (Some (fst D1, Datatypes.snd D1)) (Some (z 1, z 2)) with None => None | Some U => Some (fst U, Datatypes.snd U) end). assert (N : fst D1 <> z 1) by (intros E; apply (f_equal val) in E; vm_compute in E; discriminate). apply Feqb_neq in N as N'. rewrite N'.
  rewrite (add_of_slope bn_q bn254_q_prime (fst D1) (Datatypes.snd D1) (z 1) (z 2) (z 13329378671953404782778259908970776496321471538098033640740119230713439037279) N); [|apply Feq; vm_compute; reflexivity]. apply f_equal. unfold EcGroup.line3, D3. cbv zeta. cbn [fst Datatypes.snd]. apply f_equal2; apply Feq; vm_compute; reflexivity.
Qed.
Lemma D3_D1 : fst D3 <> fst D1. Proof. intros E. apply (f_equal val) in E. vm_compute in E. discriminate. Qed.
Local Opaque bn_q mval D1 D3.
Section Ex.
Context (ch : fpchip bn_r) (HN : fpchip_new (p:=bn_r) bn_q n k = Some ch).
Let H1 : (1 <= lb < 64)%nat. Proof. lia. Qed.
Let H2 : (2 * lb <= CAPACITY bn_r)%nat. Proof. rewrite bn_cap. lia. Qed.
Let Hp := bn254_r_prime.
Let Hq : prime (Z.pos bn_q) := bn254_q_prime.
Let HK := bn_fp_params.
Let Hx1 : 1 <= Z.abs 9. Proof. lia. Qed.
Let Hx2 : - 2 ^ 63 < 9 < 2 ^ 63 - 1. Proof. lia. Qed.
Notation hg A := (fun o => hgcarried bn_r bn_q n k o A).
(** the twist's generator is accepted *)
Example C83_curve_example : comp lb (fun _ => True) (g2_load_private lb bn_q ch bt G2) (hg G2) (fun _ _ => True).
Proof.
  eapply comp_weaken; [exact (proj2 (C83_curve_complete bn_r bn_q lb Hp H1 H2 Hq n k ch HN HK 9 Hx1 bn_room12' bn_bound12' bt (mkG2 [] []) G2 G2_on))| | |]; cbv beta; auto.
Qed.
Let LG A : comp lb (fun _ => True) (load_g2 ch A) (hg A) (fun rho o => oks (gcells bn_r o) rho).
Proof.
  assert (HL : forall v, _) by exact (fun v => proj1 (proj2 (proj2 (proj2 (C72_load bn_r bn_q lb Hp H1 H2 Hq n k ch HN HK v))))).
  eapply comp_bind; [apply HL|cbv beta; auto|]. cbv beta. intros x Hx. eapply comp_bind; [apply HL|cbv beta; auto|]. cbv beta. intros y Hy.
  apply comp_ret; [split; assumption|]. intros rho [[_ X] Y]. unfold gcells. cbn [gx gy]. apply Forall_app. split; [exact X|exact Y].
Qed.
Let LP T : comp lb (fun _ => True) (load_g1 ch T) (fun o => hpcarried bn_r bn_q n k o T) (fun rho o => oks (pcells bn_r o) rho).
Proof.
  assert (HL : forall v, _) by exact (fun v => proj1 (C51_load_complete bn_r bn_q lb Hp H1 H2 Hq n k ch HN HK v)).
  eapply comp_bind; [apply HL|cbv beta; auto|]. cbv beta. intros x Hx. eapply comp_bind; [apply HL|cbv beta; auto|]. cbv beta. intros y Hy.
  apply comp_ret; [split; assumption|]. intros rho [[_ X] Y]. unfold pcells. cbn [px py]. apply Forall_app. split; [exact X|exact Y].
Qed.
(** the sum of one point with the random point [2 G2] *)
Example C83_sum_example : comp lb (fun _ => True) (P <- load_g2 ch P1 ;; g2_sum lb bn_q ch (quot2 bn_q) (negquot2 bn_q) bt R2 [P]) (fun o => exists U, hgcarried bn_r bn_q n k o U /\ tsum bn_q [P1] = Some U) (fun _ _ => True).
Proof.
  eapply comp_bind; [apply LG|cbv beta; auto|]. cbv beta. intros P HP.
  eapply comp_weaken; [exact (C83_sum_complete bn_r bn_q lb Hp H1 H2 Hq n k ch HN HK 9 Hx1 Hx2 bn_room12' bn_bound12' bn_new_ok bn_mod6 bt bt_n0 R2 [P] [P1] R3 R2_on ltac:(constructor; [exact P1_on|constructor]) ltac:(constructor; [exact HP|constructor]) R3_chain R3_R2)| | |]; cbv beta; auto.
  intros rho [_ X]. cbn [flat_map]. apply Forall_app. split; [exact X|constructor].
Qed.
Notation naf := [0; 1].
(** one signature under one public key, the generator of G1 (secret key 1): the signature is the message hash *)
Example C84_aggregate_example : comp lb (fun _ => True) (G <- load_g1 ch (z 1, z 2) ;; A <- load_g2 ch G2 ;; K <- load_g1 ch (z 1, z 2) ;; B <- load_g2 ch G2 ;;
    bls_signature_verify lb bn_q ch 9 bn_table (quot2 bn_q) (negquot2 bn_q) (quot12 bn_q 9) naf bx bn_b bt D1 R2 G [A] [K] B)
  (fun o => hval o = F1) (fun _ _ => True).
Proof.
  eapply comp_bind; [apply LP|cbv beta; auto|]. cbv beta. intros G HG. eapply comp_bind; [apply LG|cbv beta; auto|]. cbv beta. intros A HA.
  eapply comp_bind; [apply LP|cbv beta; auto|]. cbv beta. intros K HK'. eapply comp_bind; [apply LG|cbv beta; auto|]. cbv beta. intros B HB.
  eapply comp_weaken; [exact (C84_aggregate_complete bn_r bn_q lb Hp H1 H2 Hq n k ch HN HK 9 Hx1 Hx2 bn_room12' bn_bound12' bn_new_ok bn_mod6 bn_primitive6 bn_table bn_table_ok bt bt_n0 bx bn_x_range bn_q_poly naf bn_b bn_b_nz
    D1 R2 G [A] [K] B (z 1, z 2) G2 [G2] [(z 1, z 2)] T3 G2 D3 (z 1, z 2) _ _ bn_zcap naf2_ok eq_refl eq_refl ltac:(discriminate) HG HB ltac:(constructor; [exact HA|constructor]) R2_on ltac:(constructor; [exact G2_on|constructor]) T3_chain T3_R2 eq_refl
    ltac:(constructor; [exact HK'|constructor]) D1_on ltac:(constructor; [exact bn_gen_on_curve|constructor]) D1_sums D3_D1 eq_refl (mill_G2 _) (mill_G2 _) mval_gen mval_gen bls_decs)| | |]; cbv beta; auto.
  - intros rho [[[[_ X] Y] Z'] U']. cbn [flat_map]. apply Forall_app; split; [exact X|]. apply Forall_app; split; [apply Forall_app; split; [exact Y|constructor]|]. apply Forall_app; split; [apply Forall_app; split; [exact Z'|constructor]|exact U'].
  - exact (fun o H => proj1 (proj2 H) eq_refl).
Qed.
(** the same with the points passed as private inputs *)
Example C84_points_example : comp lb (fun _ => True) (bls_signature_verify_points lb bn_q ch 9 bn_table (quot2 bn_q) (negquot2 bn_q) (quot12 bn_q 9) naf bx bn_b bt D1 R2 (z 1, z 2) [G2] [(z 1, z 2)] G2)
  (fun o => hval o = F1) (fun _ _ => True).
Proof.
  eapply comp_weaken; [exact (C84_points_complete bn_r bn_q lb Hp H1 H2 Hq n k ch HN HK 9 Hx1 Hx2 bn_room12' bn_bound12' bn_new_ok bn_mod6 bn_primitive6 bn_table bn_table_ok bt bt_n0 bx bn_x_range bn_q_poly naf bn_b bn_b_nz
    D1 R2 (z 1, z 2) [G2] [(z 1, z 2)] G2 T3 G2 D3 (z 1, z 2) _ _ bn_zcap naf2_ok eq_refl eq_refl ltac:(discriminate) bn_gen_on_curve G2_on R2_on ltac:(constructor; [exact G2_on|constructor]) T3_chain T3_R2 eq_refl
    D1_on ltac:(constructor; [exact bn_gen_on_curve|constructor]) D1_sums D3_D1 eq_refl (mill_G2 _) (mill_G2 _) mval_gen mval_gen bls_decs)| | |]; cbv beta; auto.
  exact (fun o H => proj1 (proj2 H) eq_refl).
Qed.
(** the sum of one point of G1 with the random point [2 (1, 2)] *)
Example C59_sum_complete_example : comp lb (fun _ => True) (K <- load_g1 ch (z 1, z 2) ;; ecc_sum lb bn_q ch bn_b (fst D1) (Datatypes.snd D1) [K]) (fun o => hat_pt bn_q n k o (z 1) (z 2)) (fun _ _ => True).
Proof.
  eapply comp_bind; [apply LP|cbv beta; auto|]. cbv beta. intros K HK'.
  eapply comp_weaken; [exact (C59_sum_complete bn_r bn_q lb Hp H1 H2 Hq bn_lt3 n k ch HN HK bn_he1 bn_he2 bn_b bn_b_nz (fst D1) (Datatypes.snd D1) [K] [(z 1, z 2)] (fst D3) (Datatypes.snd D3) D1_on ltac:(constructor; [exact bn_gen_on_curve|constructor]) ltac:(constructor; [exact HK'|constructor]) ltac:(rewrite D1_sums; now destruct D3) D3_D1)| | |]; cbv beta; auto.
  - intros rho [_ X]. cbn [flat_map]. apply Forall_app; split; [exact X|constructor].
  - intros o (u & v & H & E). change (PropsMsm.psum bn_q (map Some [(z 1, z 2)])) with (Some (z 1, z 2)) in E. apply some_inj in E. pose proof (f_equal fst E) as E1. pose proof (f_equal Datatypes.snd E) as E2. cbn [fst Datatypes.snd] in E1, E2. rewrite E1, E2. exact H.
Qed.
End Ex.
End InstanceG.
