(** Examples beside C76-C78 for BN254. *)
From Coq Require Import ZArith NArith Znumtheory Lia List Bool Ring.
From Verif Require Import Field Spec Context ContextProofs Utils Logic Gate GateProofs ChainProofs IPProofs BitProofs PowProofs IPComp Derived Calc CalcH
  Range RangeProofs RangeProofs2 RangeProofs3 BigInt BigSpec BigNum BigPrims BigOps BigSel BigCmp BigSub BigCarry BigMod BigCrtNum BigCrt
  FpChip FpProofs FpProofs2 FpProofs3 FpField FpField2 FpField3 Pocklington Bn254Primes PropsBigInt PropsFp Ecc PropsNaf FieldExt ExtSpec ExtSpec2 ExtProofs ExtProofs2 ExtProofs3 ExtProofs4 ExtProofs5 PropsExt PropsExt2
  RingPow CycSpec FrobSpec Cyclo Fp12Field FinalExp GaussOps FinalProofs FinalProofs2 FinalProofs3 FinalHigh PropsFinal PropsFinal2.
Import ListNotations.
Local Open Scope Z_scope.

Section Instance3.
Local Open Scope monad_scope.
Local Opaque npow.
Notation lb := 17%nat.
Notation n := 88%nat.
Notation k := 3%nat.
Notation bx := 4965661367192848881.
Let H1 : (1 <= lb < 64)%nat. Proof. lia. Qed.
Let H2 : (2 * lb <= CAPACITY bn_r)%nat. Proof. rewrite bn_cap. lia. Qed.
Add Ring Fringb : (F_ring bn_q) (morphism (F_morph bn_q), constants [Fcst]).
Notation zv := 21888242871839275220042445260109153167277707414472061641714758635765020556617.
Notation z := (of_Z bn_q).
Notation W6 := (w6 (m:=bn_q)).
Notation wmul := (w6_mul (m:=bn_q) 9).
Notation "x ^^ e" := (npow (w6_1 (m:=bn_q)) wmul x e) (at level 30).
Notation q := (N.pos bn_q).
Notation WR := (w6_ring (m:=bn_q) 9).
Add Ring W6ringb : WR.
Add Ring X2ringb : (x2_ring (m:=bn_q)).
Notation EASY := ((q ^ 6 - 1) * (q ^ 2 + 1))%N.
Notation one_w := ((x2_1, x2_1, x2_0, x2_0, x2_0, x2_0) : W6).
Lemma easy_gen (x : W6) (s a q6 : N) : (s + 1 = q6)%N -> wmul (x ^^ (s * (a + 1))) (wmul (x ^^ a) x) = wmul ((x ^^ q6) ^^ a) (x ^^ q6).
Proof.
  intros <-. rewrite (npow_mul _ _ _ _ _ _ WR x s). rewrite !(npow_add _ _ _ _ _ _ WR), !(npow_1 _ _ _ _ _ _ WR). rewrite (npow_base _ _ _ _ _ _ WR (x ^^ s)). ring.
Qed.
Lemma unit_pow (x : W6) (e : N) : unit12 bn_q 9 x -> unit12 bn_q 9 (x ^^ e).
Proof. intros (i & Ei). exists (i ^^ e). rewrite <- (npow_base _ _ _ _ _ _ WR), Ei. apply (npow_one _ _ _ _ _ _ WR). Qed.
Lemma o0 : x2_opp (x2_0 (m:=bn_q)) = x2_0. Proof. ring. Qed.
Lemma m0 (y : x2 bn_q) : x2_mul x2_0 y = x2_0. Proof. ring. Qed.
Lemma m1 (y : x2 bn_q) : x2_mul x2_1 y = y. Proof. ring. Qed.
Definition f6 : W6 := (x2_1, x2_opp x2_1, x2_0, x2_0, x2_0, x2_0).
Ltac tuple := repeat match goal with |- (_, _) = (_, _) => apply f_equal2 end.
Ltac tp := tuple; first [reflexivity | exact o0 | exact (m0 _) | exact (m1 _) | assumption].
Lemma one_w_q6 : one_w ^^ (q ^ 6) = f6.
Proof. rewrite (frob_q6 (m:=bn_q) 9 bn254_q_prime bn_mod4 bn_mod6 bn_primitive6). unfold f6. tp. Qed.
Lemma one_w_q2 : one_w ^^ (q ^ 2) = (x2_1, (z zv, F0), x2_0, x2_0, x2_0, x2_0).
Proof. rewrite (frob_q2 (m:=bn_q) 9 bn254_q_prime bn_mod4 bn_mod6). unfold zs. rewrite bn_zeta. tp. Qed.
Lemma om1 : x2_opp (x2_1 (m:=bn_q)) = (z (-1), F0).
Proof. unfold x2_opp, x2_1. cbn [fst Datatypes.snd]. match goal with |- (?a, ?b) = (?c, ?d) => assert (a = c) as -> by (apply F_eq; vm_compute; reflexivity); assert (b = d) as -> by (apply F_eq; vm_compute; reflexivity) end. reflexivity. Qed.
Lemma ozv : x2_mul (x2_opp (x2_1 (m:=bn_q))) (z zv, F0) = (z (- zv), F0).
Proof. rewrite om1. unfold x2_mul. cbn [fst Datatypes.snd]. match goal with |- (?a, ?b) = (?c, ?d) => assert (a = c) as -> by (apply F_eq; vm_compute; reflexivity); assert (b = d) as -> by (apply F_eq; vm_compute; reflexivity) end. reflexivity. Qed.
Lemma f6_q2 : f6 ^^ (q ^ 2) = (x2_1, (z (- zv), F0), x2_0, x2_0, x2_0, x2_0).
Proof. unfold f6. rewrite (frob_q2 (m:=bn_q) 9 bn254_q_prime bn_mod4 bn_mod6). unfold zs. rewrite bn_zeta, ozv, !m0. reflexivity. Qed.
Lemma f6_eq : f6 = (x2_1, (z (-1), F0), x2_0, x2_0, x2_0, x2_0).
Proof. unfold f6. rewrite om1. reflexivity. Qed.
Lemma q6_S : (q ^ 6 - 1 + 1 = q ^ 6)%N.
Proof. assert (q ^ 6 <> 0)%N by (apply N.pow_nonzero; discriminate). generalize dependent (q ^ 6)%N. intros. lia. Qed.
Local Opaque N.pow N.sub N.mul N.add bn_q.
Lemma bn_y_easy : one_w ^^ EASY = bn_y.
Proof.
  apply (unit_cancel bn_q 9 _ _ (wmul (one_w ^^ (q ^ 2)) one_w)); [apply (unit_mul bn_q 9); [apply unit_pow|]; exact one_w_unit|].
  etransitivity; [exact (easy_gen one_w _ _ _ q6_S)|]. rewrite one_w_q6, f6_q2, one_w_q2, bn_y_eq, f6_eq. reflexivity.
Qed.
Lemma bn_y_cyclotomic : cyclotomic bn_q 9 bn_y.
Proof. rewrite <- bn_y_easy. apply (easy_cyc lb bn_q H1 H2 ltac:(reflexivity) n k 9 ltac:(lia) ltac:(lia) bn_bound12' bn254_q_prime bn_mod4 bn_mod6 bn_primitive6). exact one_w_unit. Qed.
Lemma bn_y2_decompressible : decompressible bn_q (wmul bn_y bn_y).
Proof.
  unfold decompressible, bn_y. cbv beta iota zeta delta [w6_mul]. left. intros E. apply (f_equal (fun x => val (fst x))) in E. vm_compute in E. discriminate.
Qed.
Lemma bn_y2_cyclotomic : cyclotomic bn_q 9 (wmul bn_y bn_y).
Proof. pose proof bn_y_cyclotomic as C. unfold cyclotomic in *. rewrite (npow_base _ _ _ _ _ _ WR), C. apply (Rmul_1_l WR). Qed.
Lemma n0 (a0 a1 a2 a3 a4 a5 : x2 bn_q) : val (fst a0) <> 0 -> ((a0, a1, a2, a3, a4, a5) : W6) <> w6_0.
Proof. intros N E. apply N. apply (f_equal (fun a : W6 => let '(a0, _, _, _, _, _) := a in val (fst a0))) in E. etransitivity; [exact E|]. reflexivity. Qed.
Lemma one_w_n0 : one_w <> w6_0. Proof. apply n0. vm_compute. discriminate. Qed.
Definition x23 : W6 := ((z 2, F0), x2_0, (z 3, F0), x2_0, x2_0, x2_0).
Lemma x23_n0 : x23 <> w6_0. Proof. apply n0. vm_compute. discriminate. Qed.
Lemma bn_x_range : 0 < bx <= 2 ^ 63. Proof. vm_compute. split; [reflexivity|discriminate]. Qed.
Lemma x23_q6 : x23 ^^ (q ^ 6) = x23. Proof. rewrite (frob_q6 (m:=bn_q) 9 bn254_q_prime bn_mod4 bn_mod6 bn_primitive6). unfold x23. rewrite !o0. reflexivity. Qed.
Lemma fix_one (x : W6) (s q6 e : N) : (s + 1 = q6)%N -> unit12 bn_q 9 x -> x ^^ q6 = x -> x ^^ (s * e) = w6_1.
Proof.
  intros <- U E. rewrite (npow_mul _ _ _ _ _ _ WR). assert (E1 : x ^^ s = w6_1). { apply (unit_cancel bn_q 9 _ _ _ U). rewrite (npow_add _ _ _ _ _ _ WR), (npow_1 _ _ _ _ _ _ WR) in E. rewrite E. ring. }
  rewrite E1. apply (npow_one _ _ _ _ _ _ WR).
Qed.
Lemma x23_easy : x23 ^^ EASY = w6_1.
Proof. apply (fix_one x23 _ _ _ q6_S); [|exact x23_q6]. exact (w6_field (m:=bn_q) 9 bn254_q_prime bn_mod4 bn_mod6 bn_primitive6 x23 x23_n0). Qed.
Lemma dec_1 : decompressible bn_q w6_1.
Proof. unfold decompressible, w6_1, w6_c. right. apply m0. Qed.
Lemma x23_dec : forall j, (1 <= j <= (Z.to_N bx + 1) * Z.to_N bx * Z.to_N bx)%N -> decompressible bn_q ((x23 ^^ EASY) ^^ j).
Proof. intros j _. rewrite x23_easy, (npow_one _ _ _ _ _ _ WR). exact dec_1. Qed.
Lemma ref_val : x2_add x2_1 (x2_mul (x2_add x2_1 x2_1) (x2_mul (xi (m:=bn_q) 9) (x2_mul (z 5, F0) (z 5, F0)))) = ((z 451, z 50) : x2 bn_q).
Proof. unfold x2_add, x2_mul, x2_1, xi. cbn [fst Datatypes.snd]. match goal with |- (?a, ?b) = (?c, ?d) => assert (a = c) as -> by (apply F_eq; vm_compute; reflexivity); assert (b = d) as -> by (apply F_eq; vm_compute; reflexivity) end. reflexivity. Qed.
Section Ex.
Context (ch : fpchip bn_r) (HN : fpchip_new (p:=bn_r) bn_q n k = Some ch).
Let Hp := bn254_r_prime.
Let Hq : prime (Z.pos bn_q) := bn254_q_prime.
Let HK := bn_fp_params.
Let HZ := bn_zcap.
Let HL : forall v, comp lb (fun _ => True) (vec_load_private lb bn_q ch v) (fun o => hcarrieds bn_q n k o v) (fun rho o => oks (cells o) rho).
Proof. exact (fun v => proj1 (proj2 (proj2 (proj2 (C72_load bn_r bn_q lb Hp H1 H2 Hq n k ch HN HK v))))). Qed.
Let Hx1 : 1 <= Z.abs 9. Proof. lia. Qed.
Let Hx2 : - 2 ^ 63 < 9 < 2 ^ 63 - 1. Proof. lia. Qed.
(** the sixth Frobenius power of [1 + w] is [1 - w] *)
Example C76_example : comp lb (fun _ => True) (a <- vec_load_private lb bn_q ch (enc one_w) ;; frobenius_map lb bn_q ch bn_table a 6)
  (fun o => hcarrieds bn_q n k o (enc (x2_1, x2_opp x2_1, x2_0, x2_0, x2_0, x2_0))) (fun _ _ => True).
Proof.
  eapply comp_bind; [apply HL|cbv beta; auto|]. cbv beta. intros a Ha.
  eapply comp_weaken; [exact (C76_frobenius_complete bn_r bn_q lb Hp H1 H2 Hq n k ch HN HK 9 Hx1 Hx2 bn_room12' bn_bound12' bn_new_ok bn_mod6 bn_primitive6 bn_table bn_table_ok a 6 one_w HZ Ha)| | |].
  - cbv beta. intros rho [_ A]. exact A.
  - cbv beta. intros o Ho. rewrite (one_w_q6 : one_w ^^ (q ^ N.of_nat 6) = f6) in Ho. exact Ho.
  - auto.
Qed.
(** compress, square, decompress a cyclotomic element *)
Example C77_example : comp lb (fun _ => True)
  (a <- vec_load_private lb bn_q ch (enc bn_y) ;; c <- cyclotomic_compress a ;; s <- cyclotomic_square lb ch 9 c ;; cyclotomic_decompress lb bn_q ch 9 (quot2 bn_q) s)
  (fun o => hcarrieds bn_q n k o (enc (wmul bn_y bn_y))) (fun _ _ => True).
Proof.
  assert (CC : forall a c x, _) by exact (fun a c x => C77_compressed_complete bn_r bn_q lb Hp H1 H2 Hq n k ch HN HK 9 Hx1 Hx2 bn_room12' bn_bound12' bn_new_ok bn_mod6 bn_primitive6 a c x HZ).
  eapply comp_bind; [apply HL|cbv beta; auto|]. cbv beta. intros a Ha.
  eapply comp_bind; [exact (proj1 (CC a [] bn_y) Ha)|cbv beta; intros rho [_ A]; exact A|]. cbv beta. intros c Hc.
  eapply comp_bind; [exact (proj1 (proj2 (CC [] c bn_y)) Hc bn_y_cyclotomic)|cbv beta; intros rho [_ A]; exact A|]. cbv beta. intros s Hs.
  eapply comp_weaken; [exact (proj2 (proj2 (CC [] s (wmul bn_y bn_y))) Hs bn_y2_cyclotomic bn_y2_decompressible)|cbv beta; intros rho [_ A]; exact A| |]; auto.
Qed.
(** the hypotheses of the identity's refutation: any [ch] value compressing 1, e.g. the compression of a loaded 1; with [t = 5] the output is [1 + 50 xi + 5 w^3] *)
Example C77_refuted_example : comp lb (fun _ => True)
  (a <- vec_load_private lb bn_q ch (enc w6_1) ;; c <- cyclotomic_compress a ;; cyclotomic_decompress lb bn_q ch 9 (answer0 bn_q (z 5, F0)) c)
  (fun o => hcarrieds bn_q n k o (enc ((z 451, z 50), x2_0, x2_0, (z 5, F0), x2_0, x2_0))) (fun _ _ => True).
Proof.
  eapply comp_bind; [apply HL|cbv beta; auto|]. cbv beta. intros a Ha.
  eapply comp_bind; [exact (proj1 (C77_compressed_complete bn_r bn_q lb Hp H1 H2 Hq n k ch HN HK 9 Hx1 Hx2 bn_room12' bn_bound12' bn_new_ok bn_mod6 bn_primitive6 a [] w6_1 HZ) Ha)|cbv beta; intros rho [_ A]; exact A|]. cbv beta. intros c Hc.
  eapply comp_weaken; [exact (C77_decompress_one_refuted bn_r bn_q lb Hp H1 H2 Hq n k ch HN HK 9 Hx1 Hx2 bn_room12' bn_bound12' c (z 5, F0) HZ Hc)|cbv beta; intros rho [_ A]; exact A| |auto].
  cbv beta. intros o Ho. rewrite ref_val in Ho. exact Ho.
Qed.
Example C77_pow_example : comp lb (fun _ => True) (a <- vec_load_private lb bn_q ch (enc one_w) ;; fp12_pow lb bn_q ch 9 (quot12 bn_q 9) a [5])
  (fun o => hcarrieds bn_q n k o (enc (one_w ^^ 5))) (fun _ _ => True).
Proof.
  eapply comp_bind; [apply HL|cbv beta; auto|]. cbv beta. intros a Ha.
  assert (E5 : limbs_value [5] = 5) by reflexivity.
  assert (U5 : u64s [5]) by (unfold u64s; repeat constructor; lia).
  assert (B5 : limbs_value [5] <= 2 ^ (64 * Z.of_nat (length [5]) - 1)) by (rewrite E5; cbn; lia).
  pose proof (proj1 (C77_pow_complete bn_r bn_q lb Hp H1 H2 Hq n k ch HN HK 9 Hx1 Hx2 bn_room12' bn_bound12' bn_new_ok bn_mod6 bn_primitive6 a [5] one_w U5 ltac:(discriminate) B5 Ha) one_w_n0) as C. rewrite E5 in C. cbn [Z.eqb] in C.
  eapply comp_weaken; [exact C|cbv beta; intros rho [_ A]; exact A| |]; auto.
Qed.
(** [x = 2 + 3 w^2] lies in Fp6, so [x^EASY = 1] and all its powers are decompressible *)
Example C78_example : comp lb (fun _ => True) (a <- vec_load_private lb bn_q ch (enc x23) ;; final_exp lb bn_q ch 9 bn_table (quot2 bn_q) (quot12 bn_q 9) bx a)
  (fun o => hcarrieds bn_q n k o (enc (x23 ^^ ((q ^ 12 - 1) / N.pos bn_r)))) (fun _ _ => True).
Proof.
  eapply comp_bind; [apply HL|cbv beta; auto|]. cbv beta. intros a Ha.
  eapply comp_weaken; [exact (C78_final_exp_complete bn_r bn_q lb Hp H1 H2 Hq n k ch HN HK 9 Hx1 Hx2 bn_room12' bn_bound12' bn_new_ok bn_mod6 bn_primitive6 bn_table bn_table_ok bx bn_x_range bn_q_poly a x23 HZ Ha x23_n0 x23_dec)|cbv beta; intros rho [_ A]; exact A| |auto].
  cbv beta. intros o Ho. rewrite bn_r_order in Ho. exact Ho.
Qed.
End Ex.
End Instance3.
