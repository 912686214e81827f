(** Property theorems C73-C74: [Fp2Chip] and [Fp12Chip] (halo2-ecc/src/fields/{fp2,fp12}.rs), against ExtSpec.v.
    Reading guide: [overs]/[carrieds]/[hovers]/[hcarrieds] of PropsExt.v; an Fp2 value is the pair of its coordinates, an Fp12 value the list of its 12. *)
From Coq Require Import ZArith Znumtheory Lia List Bool Ring.
From Verif Require Import Field Spec Context ContextProofs Utils Logic Gate GateProofs ChainProofs IPProofs BitProofs PowProofs IPComp Derived Calc CalcH
  Range RangeProofs RangeProofs2 RangeProofs3 BigInt BigSpec BigNum BigPrims BigOps BigSel BigCmp BigSub BigCarry BigMod BigCrtNum BigCrt
  FpChip FpProofs FpProofs2 FpProofs3 FpField FpField2 FpField3 Bn254Primes PropsBigInt PropsFp FieldExt ExtSpec ExtSpec2 ExtProofs ExtProofs2 ExtProofs3 ExtProofs4 ExtProofs5 PropsExt.
Import ListNotations.
Local Open Scope Z_scope.

(** an Fp2 element as a coordinate list *)
Definition l2 {m : positive} (x : x2 m) : list (F m) := [fst x; snd x].

Section Ext.
Context (p m : positive) (lb : nat) (Hp : prime (Z.pos p)) (Hlb : (1 <= lb < 64)%nat) (Hlb2 : (2 * lb <= CAPACITY p)%nat) (Hm : prime (Z.pos m)).
Context (n k : nat) (ch : fpchip p) (HN : fpchip_new m n k = Some ch) (HK : fp_params (p:=p) lb m n k).
Notation vec := (list (crt p)).
Notation overs := (overs (p:=p) m n).
Notation carrieds := (carrieds (p:=p) m n).
Notation hovers := (hovers (p:=p) m n).
Notation hcarrieds := (hcarrieds (p:=p) m n k).
Notation vlimbs := (vlimbs (p:=p) k).
Notation vlimbs_eq := (vlimbs_eq (p:=p) k).
Notation W := (2 ^ Z.of_nat (n * k + NUM_BITS p)).
Notation M2 := (2 ^ Z.of_nat (bits (Z.pos m))).
Notation room := (ExtProofs.room (p:=p) lb n k).
Notation lg := (log2_ceil (Z.of_nat k)).
Let Hm1 : 1 < Z.pos m. Proof. pose proof (prime_ge_2 _ Hm). lia. Qed.
Let HM : Z.pos m < M2. Proof. exact (m_le_M2 lb m Hlb Hlb2 Hm1). Qed.
Let T : env (p:=p) -> Prop := fun _ => True.
Let i64 s := - 2 ^ 63 < s < 2 ^ 63.
Add Ring Fringm : (F_ring m) (morphism (F_morph m), constants [Fcst]).
Ltac snd H := eapply sound_weaken; [apply (h_sound lb _ _ _ _ _ H)|cbv beta|cbv beta]; auto.
Ltac cmp H := eapply comp_weaken; [apply (h_comp lb _ _ _ _ _ H)|cbv beta|cbv beta|cbv beta]; auto.

(** ** C73: Fp2 *)
Theorem C73_no_carry : forall (a b : vec) (ba bb : nat) (xi0 : Z), vlimbs a ba -> vlimbs b bb -> i64 xi0 ->
  sound lb (fp2_mul_no_carry ch a b) (fun o => length o = 2%nat /\ vlimbs o (lg + ba + bb + 1))
    (fun sg o => forall Ba Bb x y, overs (avs sg) a Ba (l2 x) -> overs (avs sg) b Bb (l2 y) -> overs (avs sg) o (2 * (Ba * Bb)) (l2 (x2_mul x y))) /\
  sound lb (mul_no_carry_w6 xi0 a) (fun o => length o = 2%nat /\ vlimbs o (ba + log2_ceil (Z.abs xi0) + 1))
    (fun sg o => forall Ba x, overs (avs sg) a Ba (l2 x) -> overs (avs sg) o (Ba * (Z.abs xi0 + 1)) (l2 (x2_mul x (of_Z m xi0, F1)))) /\
  (forall Ba Bb x y, hovers a Ba (l2 x) -> hovers b Bb (l2 y) ->
     comp lb (oks (cells a ++ cells b)) (fp2_mul_no_carry ch a b) (fun o => hovers o (2 * (Ba * Bb)) (l2 (x2_mul x y))) (fun rho o => oks (cells o) rho) /\
     comp lb (oks (cells a)) (mul_no_carry_w6 xi0 a) (fun o => hovers o (Ba * (Z.abs xi0 + 1)) (l2 (x2_mul x (of_Z m xi0, F1)))) (fun rho o => oks (cells o) rho)).
Proof.
  intros a b ba bb xi0 Ka Kb Hxi. split; [|split].
  - pose proof (l2_mul_nc lb m Hp Hlb Hlb2 Hm1 ch n k HN HK (cells a ++ cells b) T False a b ba bb (vl _ a b) (vr _ a b) Ka Kb ltac:(intros [])) as H. snd H; [tauto|].
    intros sg o _ R Ba Bb x y Hx Hy. eapply vrep_overs, (R False Ba Bb x y); now apply overs_vrep.
  - pose proof (l2_w6 lb m Hlb Hlb2 n k (cells a) T False a ba xi0 (incl_refl _) Ka Hxi ltac:(intros [])) as H. snd H; [tauto|].
    intros sg o _ R Ba x Hx. eapply vrep_overs, (R False Ba x); now apply overs_vrep.
  - intros Ba Bb x y Hx Hy. pose proof (hovers_good _ _ _ _ _ Hx) as Ga. pose proof (hovers_good _ _ _ _ _ Hy) as Gb. pose proof (hovers_vrep _ _ _ _ _ Hx) as Fx. pose proof (hovers_vrep _ _ _ _ _ Hy) as Fy.
    pose proof (hovers_len _ _ _ _ _ Hx) as La. pose proof (hovers_len _ _ _ _ _ Hy) as Lb. split.
    + pose proof (l2_mul_nc lb m Hp Hlb Hlb2 Hm1 ch n k HN HK (cells a ++ cells b) T True a b ba bb (vl _ a b) (vr _ a b) Ka Kb ltac:(auto)) as H. cmp H; [now apply Fapp2|].
      intros o (_ & Go & R). apply vrep_hovers; auto. now apply (R True Ba Bb x y).
    + pose proof (l2_w6 lb m Hlb Hlb2 n k (cells a) T True a ba xi0 (incl_refl _) Ka Hxi ltac:(auto)) as H. cmp H.
      intros o (_ & Go & R). apply vrep_hovers; auto. now apply (R True Ba x).
Qed.
Theorem C73_conjugate : forall (a : vec), vlimbs_eq a n ->
  sound lb (fp2_conjugate lb ch a) (fun o => length o = 2%nat /\ vlimbs_eq o n) (fun sg o => forall x, carrieds (avs sg) a (l2 x) -> carrieds (avs sg) o (l2 (x2_conj x))) /\
  sound lb (fp2_neg_conjugate lb ch a) (fun o => length o = 2%nat /\ vlimbs_eq o n) (fun sg o => forall x, carrieds (avs sg) a (l2 x) -> carrieds (avs sg) o (l2 (x2_opp (x2_conj x)))) /\
  (forall x, zcap (p:=p) n k -> hcarrieds a (l2 x) ->
     comp lb (oks (cells a)) (fp2_conjugate lb ch a) (fun o => hcarrieds o (l2 (x2_conj x))) (fun rho o => oks (cells o) rho) /\
     comp lb (oks (cells a)) (fp2_neg_conjugate lb ch a) (fun o => hcarrieds o (l2 (x2_opp (x2_conj x)))) (fun rho o => oks (cells o) rho)).
Proof.
  intros a Ka. split; [|split].
  - pose proof (l2_conjugate lb m Hp Hlb Hlb2 Hm1 ch n k HN HK (cells a) T False a (incl_refl _) Ka ltac:(intros []) ltac:(intros [])) as H. snd H; [tauto|].
    intros sg o _ R x Hx. eapply vred_carrieds, (R False x); now apply carrieds_vred.
  - pose proof (l2_neg_conjugate lb m Hp Hlb Hlb2 Hm1 ch n k HN HK (cells a) T False a (incl_refl _) Ka ltac:(intros []) ltac:(intros [])) as H. snd H; [tauto|].
    intros sg o _ R x Hx. eapply vred_carrieds, (R False x); now apply carrieds_vred.
  - intros x Hz Hx. pose proof (hcarrieds_good _ _ _ _ _ Hx) as Ga. pose proof (hcarrieds_vred _ _ _ HM _ _ Hx) as Fx. pose proof (hcarrieds_len _ _ _ _ _ Hx) as La. split.
    + pose proof (l2_conjugate lb m Hp Hlb Hlb2 Hm1 ch n k HN HK (cells a) T True a (incl_refl _) Ka ltac:(auto) ltac:(intros _ _; exists x; exact Fx)) as H. cmp H.
      intros o ((_ & L & K) & Go & R). apply vred_hcarrieds; auto. now apply (R True x).
    + pose proof (l2_neg_conjugate lb m Hp Hlb Hlb2 Hm1 ch n k HN HK (cells a) T True a (incl_refl _) Ka ltac:(auto) ltac:(intros _ _; exists x; exact Fx)) as H. cmp H.
      intros o ((_ & L & K) & Go & R). apply vred_hcarrieds; auto. now apply (R True x).
Qed.

Section Mul2.
(** the products fit: limbs of [lg + 2n + 2] bits can be carried, and [8 (2 * 2^(2|m|) + 2^|m|) < 2^(nk) 2^NUM_BITS] *)
Context (Hr : room (lg + n + n + 1 + 1)) (HB : 8 * (2 * (M2 * M2) + M2) < W).
Notation mul2 := (ext_mul lb ch (fp2_mul_no_carry ch)).
Notation divide2 := (ext_divide lb m ch 2 (fp2_mul_no_carry ch) (quot2 m)).
Notation divide_unsafe2 := (ext_divide_unsafe lb m ch 2 (fp2_mul_no_carry ch) (quot2 m)).
Notation neg_divide2 := (ext_neg_divide lb m ch 2 (fp2_mul_no_carry ch) (negquot2 m)).
Notation neg_divide_unsafe2 := (ext_neg_divide_unsafe lb m ch 2 (fp2_mul_no_carry ch) (negquot2 m)).
Let H2d : (0 < 2)%nat. Proof. lia. Qed.
Let Hnb : (n <= lg + n + n + 1)%nat. Proof. lia. Qed.
Let SL : forall u v : list (F m), length u = 2%nat -> length v = 2%nat -> length (spec2 m u v) = 2%nat.
Proof. intros u v Hu Hv. apply len2 in Hu as (? & ? & ->), Hv as (? & ? & ->). reflexivity. Qed.
Let QL : forall u v : list (F m), length u = 2%nat -> length v = 2%nat -> length (quot2 m u v) = 2%nat.
Proof. intros u v Hu Hv. apply len2 in Hu as (? & ? & ->), Hv as (? & ? & ->). reflexivity. Qed.
Let NQL : forall u v : list (F m), length u = 2%nat -> length v = 2%nat -> length (negquot2 m u v) = 2%nat.
Proof. intros u v Hu Hv. apply len2 in Hu as (? & ? & ->), Hv as (? & ? & ->). reflexivity. Qed.
Let S2 : forall x y : x2 m, spec2 m (l2 x) (l2 y) = l2 (x2_mul x y). Proof. intros [] []. reflexivity. Qed.
Let Q2 : forall x y : x2 m, quot2 m (l2 x) (l2 y) = l2 (x2_mul x (x2_inv y)). Proof. intros [] []. reflexivity. Qed.
Let N2 : forall x y : x2 m, negquot2 m (l2 x) (l2 y) = l2 (x2_mul (x2_opp x) (x2_inv y)). Proof. intros [] []. reflexivity. Qed.
Let HMul := fp2_Hmul lb m Hp Hlb Hlb2 Hm1 ch n k HN HK (lg + n + n + 1) (Nat.le_refl _).
Lemma l2_inj (x y : x2 m) : l2 x = l2 y -> x = y. Proof. destruct x, y. unfold l2. cbn [fst Datatypes.snd]. intros [= -> ->]. reflexivity. Qed.
Lemma l2_of (w : list (F m)) : length w = 2%nat -> exists x, w = l2 x. Proof. intros H. apply len2 in H as (a & b & ->). now exists (a, b). Qed.
Lemma l2_is0 (x : x2 m) : forallb Fis0 (l2 x) = false <-> x <> x2_0.
Proof.
  pose proof (x2_is0_eq x) as E. destruct x as [x0 x1]. unfold l2, x2_is0 in *. cbn [fst Datatypes.snd forallb] in *. rewrite andb_true_r. rewrite <- E. now rewrite not_true_iff_false.
Qed.
Lemma l2_opp (x : x2 m) : map Fopp (l2 x) = l2 (x2_opp x). Proof. now destruct x. Qed.
(** if [w y = x] with [y <> 0] then [w = x / y] *)
Lemma x2_quot (H3 : Z.pos m mod 4 = 3) (w x y : x2 m) : y <> x2_0 -> x2_mul w y = x -> w = x2_mul x (x2_inv y).
Proof.
  intros Hy <-. pose proof (x2_inv_ok Hm H3 y Hy) as I0. destruct (x2_ring (m:=m)) as [_ _ _ M1 MC MA _ _ _].
  rewrite <- MA, I0, MC, M1. reflexivity.
Qed.
Lemma x2_quot' (H3 : Z.pos m mod 4 = 3) (x y : x2 m) : y <> x2_0 -> x2_mul (x2_mul x (x2_inv y)) y = x.
Proof.
  intros Hy. pose proof (x2_inv_ok Hm H3 y Hy) as I0. destruct (x2_ring (m:=m)) as [_ _ _ M1 MC MA _ _ _].
  rewrite <- MA, (MC (x2_inv y)), I0, MC, M1. reflexivity.
Qed.
Lemma ext_new_mod : ext_new_ok m = true -> Z.pos m mod 4 = 3. Proof. intros H. apply Z.eqb_eq in H. now rewrite (modulus_correct Hm1) in H. Qed.
Theorem C73_mul_divide_sound : forall (a b : vec), ext_new_ok m = true -> vlimbs_eq a n -> vlimbs_eq b n ->
  sound lb (mul2 a b) (fun o => length o = 2%nat /\ vlimbs_eq o n)
    (fun sg o => forall x y, carrieds (avs sg) a (l2 x) -> carrieds (avs sg) b (l2 y) -> carrieds (avs sg) o (l2 (x2_mul x y))) /\
  sound lb (divide2 a b) (fun o => length o = 2%nat /\ vlimbs_eq o n)
    (fun sg o => forall x y, carrieds (avs sg) a (l2 x) -> carrieds (avs sg) b (l2 y) -> y <> x2_0 /\ carrieds (avs sg) o (l2 (x2_mul x (x2_inv y)))) /\
  sound lb (neg_divide2 a b) (fun o => length o = 2%nat /\ vlimbs_eq o n)
    (fun sg o => forall x y, carrieds (avs sg) a (l2 x) -> carrieds (avs sg) b (l2 y) -> y <> x2_0 /\ carrieds (avs sg) o (l2 (x2_mul (x2_opp x) (x2_inv y)))) /\
  (** the unsafe variants do not check the divisor: with a zero divisor, a zero numerator leaves the quotient free *)
  sound lb (divide_unsafe2 a b) (fun o => length o = 2%nat /\ vlimbs_eq o n)
    (fun sg o => forall x y, carrieds (avs sg) a (l2 x) -> carrieds (avs sg) b (l2 y) ->
       exists w, carrieds (avs sg) o (l2 w) /\ x2_mul w y = x /\ (y <> x2_0 -> w = x2_mul x (x2_inv y))) /\
  sound lb (neg_divide_unsafe2 a b) (fun o => length o = 2%nat /\ vlimbs_eq o n)
    (fun sg o => forall x y, carrieds (avs sg) a (l2 x) -> carrieds (avs sg) b (l2 y) ->
       exists w, carrieds (avs sg) o (l2 w) /\ x2_mul w y = x2_opp x /\ (y <> x2_0 -> w = x2_mul (x2_opp x) (x2_inv y))).
Proof.
  intros a b H3 Ka Kb. apply ext_new_mod in H3.
  split; [|split; [|split; [|split]]].
  - pose proof (v_mul lb m Hp Hlb Hlb2 Hm1 ch n k HN HK 2 _ _ _ _ H2d Hr Hnb HB HMul (cells a ++ cells b) T False a b (vl _ a b) (vr _ a b) Ka Kb ltac:(intros []) ltac:(intros [])) as H. snd H; [tauto|].
    intros sg o _ R x y Hx Hy. eapply vred_carrieds. rewrite <- S2. apply (R False); now apply carrieds_vred.
  - pose proof (v_divide lb m Hp Hlb Hlb2 Hm1 ch n k HN HK 2 _ _ _ _ H2d SL Hr Hnb HB HMul (cells a ++ cells b) T False (quot2 m) a b (vl _ a b) (vr _ a b) Ka Kb ltac:(intros []) ltac:(intros []) QL ltac:(intros [])) as H. snd H; [tauto|].
    intros sg o (_ & _ & Lo & _) R x y Hx Hy. apply carrieds_vred in Hx, Hy. destruct (R False _ _ Hx Hy ltac:(tauto)) as (N & w & Hw & E & _).
    apply l2_is0 in N. split; auto. pose proof (vred_len lb m Hlb Hlb2 n _ _ _ _ Hw) as Lw. rewrite Lo in Lw. destruct (l2_of w (eq_sym Lw)) as [w' ->]. rewrite S2 in E. apply l2_inj in E.
    rewrite <- (x2_quot H3 w' x y N E). eapply vred_carrieds; eauto.
  - pose proof (v_neg_divide lb m Hp Hlb Hlb2 Hm1 ch n k HN HK 2 _ _ _ _ H2d SL Hr Hnb HB HMul (cells a ++ cells b) T False (negquot2 m) a b (vl _ a b) (vr _ a b) Ka Kb ltac:(intros []) ltac:(intros []) NQL ltac:(intros [])) as H. snd H; [tauto|].
    intros sg o (_ & _ & Lo & _) R x y Hx Hy. apply carrieds_vred in Hx, Hy. destruct (R False _ _ Hx Hy ltac:(tauto)) as (N & w & Hw & E & _).
    apply l2_is0 in N. split; auto. pose proof (vred_len lb m Hlb Hlb2 n _ _ _ _ Hw) as Lw. rewrite Lo in Lw. destruct (l2_of w (eq_sym Lw)) as [w' ->]. rewrite S2, l2_opp in E. apply l2_inj in E.
    rewrite <- (x2_quot H3 w' _ y N E). eapply vred_carrieds; eauto.
  - pose proof (v_divide_unsafe lb m Hp Hlb Hlb2 Hm1 ch n k HN HK 2 _ _ _ _ H2d SL Hr Hnb HB HMul (cells a ++ cells b) T False (quot2 m) a b (vl _ a b) (vr _ a b) Ka Kb ltac:(intros []) QL ltac:(intros [])) as H. snd H; [tauto|].
    intros sg o (_ & _ & Lo & _) R x y Hx Hy. apply carrieds_vred in Hx, Hy. destruct (R False _ _ Hx Hy ltac:(tauto)) as (w & Hw & E & _).
    pose proof (vred_len lb m Hlb Hlb2 n _ _ _ _ Hw) as Lw. rewrite Lo in Lw. destruct (l2_of w (eq_sym Lw)) as [w' ->]. rewrite S2 in E. apply l2_inj in E.
    exists w'. split; [eapply vred_carrieds; eauto|]. split; auto. intros N. now apply x2_quot.
  - pose proof (v_neg_divide_unsafe lb m Hp Hlb Hlb2 Hm1 ch n k HN HK 2 _ _ _ _ H2d SL Hr Hnb HB HMul (cells a ++ cells b) T False (negquot2 m) a b (vl _ a b) (vr _ a b) Ka Kb ltac:(intros []) NQL ltac:(intros [])) as H. snd H; [tauto|].
    intros sg o (_ & _ & Lo & _) R x y Hx Hy. apply carrieds_vred in Hx, Hy. destruct (R False _ _ Hx Hy ltac:(tauto)) as (w & Hw & E & _).
    pose proof (vred_len lb m Hlb Hlb2 n _ _ _ _ Hw) as Lw. rewrite Lo in Lw. destruct (l2_of w (eq_sym Lw)) as [w' ->]. rewrite S2, l2_opp in E. apply l2_inj in E.
    exists w'. split; [eapply vred_carrieds; eauto|]. split; auto. intros N. now apply x2_quot.
Qed.
Theorem C73_mul_divide_complete : forall (a b : vec) (x y : x2 m), ext_new_ok m = true -> hcarrieds a (l2 x) -> hcarrieds b (l2 y) ->
  comp lb (oks (cells a ++ cells b)) (mul2 a b) (fun o => hcarrieds o (l2 (x2_mul x y))) (fun rho o => oks (cells o) rho) /\
  (y <> x2_0 ->
   comp lb (oks (cells a ++ cells b)) (divide_unsafe2 a b) (fun o => hcarrieds o (l2 (x2_mul x (x2_inv y)))) (fun rho o => oks (cells o) rho) /\
   comp lb (oks (cells a ++ cells b)) (neg_divide_unsafe2 a b) (fun o => hcarrieds o (l2 (x2_mul (x2_opp x) (x2_inv y)))) (fun rho o => oks (cells o) rho) /\
   (zcap (p:=p) n k ->
    comp lb (oks (cells a ++ cells b)) (divide2 a b) (fun o => hcarrieds o (l2 (x2_mul x (x2_inv y)))) (fun rho o => oks (cells o) rho) /\
    comp lb (oks (cells a ++ cells b)) (neg_divide2 a b) (fun o => hcarrieds o (l2 (x2_mul (x2_opp x) (x2_inv y)))) (fun rho o => oks (cells o) rho))).
Proof.
  intros a b x y H3 Hx Hy. apply ext_new_mod in H3.
  pose proof (hcarrieds_good _ _ _ _ _ Hx) as Ga. pose proof (hcarrieds_good _ _ _ _ _ Hy) as Gb. pose proof (hcarrieds_vlimbs _ _ _ _ _ Hx) as Ka. pose proof (hcarrieds_vlimbs _ _ _ _ _ Hy) as Kb.
  pose proof (hcarrieds_vred _ _ _ HM _ _ Hx) as Fx. pose proof (hcarrieds_vred _ _ _ HM _ _ Hy) as Fy. pose proof (hcarrieds_len _ _ _ _ _ Hx) as La. pose proof (hcarrieds_len _ _ _ _ _ Hy) as Lb.
  assert (LL : True -> length a = 2%nat /\ length b = 2%nat) by auto.
  split; [|intros N; split; [|split; [|intros Hz; split]]].
  - pose proof (v_mul lb m Hp Hlb Hlb2 Hm1 ch n k HN HK 2 _ _ _ _ H2d Hr Hnb HB HMul (cells a ++ cells b) T True a b (vl _ a b) (vr _ a b) Ka Kb LL ltac:(intros _ _; eauto)) as H. cmp H; [now apply Fapp2|].
    intros o ((_ & _ & L & K) & Go & R). apply vred_hcarrieds; auto. rewrite <- S2. now apply (R True).
  - pose proof (v_divide_unsafe lb m Hp Hlb Hlb2 Hm1 ch n k HN HK 2 _ _ _ _ H2d SL Hr Hnb HB HMul (cells a ++ cells b) T True (quot2 m) a b (vl _ a b) (vr _ a b) Ka Kb LL QL
      ltac:(intros _ _; exists (l2 x), (l2 y); split; [exact Fx|split; [exact Fy|]]; rewrite Q2, S2; f_equal; now apply x2_quot')) as H. cmp H; [now apply Fapp2|].
    intros o ((_ & _ & L & K) & Go & R). apply vred_hcarrieds; auto. destruct (R True _ _ Fx Fy ltac:(auto)) as (w & Hw & _ & E). rewrite <- Q2, <- E; auto.
  - pose proof (v_neg_divide_unsafe lb m Hp Hlb Hlb2 Hm1 ch n k HN HK 2 _ _ _ _ H2d SL Hr Hnb HB HMul (cells a ++ cells b) T True (negquot2 m) a b (vl _ a b) (vr _ a b) Ka Kb LL NQL
      ltac:(intros _ _; exists (l2 x), (l2 y); split; [exact Fx|split; [exact Fy|]]; rewrite N2, S2, l2_opp; f_equal; now apply x2_quot')) as H. cmp H; [now apply Fapp2|].
    intros o ((_ & _ & L & K) & Go & R). apply vred_hcarrieds; auto. destruct (R True _ _ Fx Fy ltac:(auto)) as (w & Hw & _ & E). rewrite <- N2, <- E; auto.
  - pose proof (v_divide lb m Hp Hlb Hlb2 Hm1 ch n k HN HK 2 _ _ _ _ H2d SL Hr Hnb HB HMul (cells a ++ cells b) T True (quot2 m) a b (vl _ a b) (vr _ a b) Ka Kb LL ltac:(auto) QL
      ltac:(intros _ _; exists (l2 x), (l2 y); split; [exact Fx|split; [exact Fy|split]]; [rewrite Q2, S2; f_equal; now apply x2_quot'|now apply l2_is0])) as H. cmp H; [now apply Fapp2|].
    intros o ((_ & _ & L & K) & Go & R). apply vred_hcarrieds; auto. destruct (R True _ _ Fx Fy ltac:(auto)) as (_ & w & Hw & _ & E). rewrite <- Q2, <- E; auto.
  - pose proof (v_neg_divide lb m Hp Hlb Hlb2 Hm1 ch n k HN HK 2 _ _ _ _ H2d SL Hr Hnb HB HMul (cells a ++ cells b) T True (negquot2 m) a b (vl _ a b) (vr _ a b) Ka Kb LL ltac:(auto) NQL
      ltac:(intros _ _; exists (l2 x), (l2 y); split; [exact Fx|split; [exact Fy|split]]; [rewrite N2, S2, l2_opp; f_equal; now apply x2_quot'|now apply l2_is0])) as H. cmp H; [now apply Fapp2|].
    intros o ((_ & _ & L & K) & Go & R). apply vred_hcarrieds; auto. destruct (R True _ _ Fx Fy ltac:(auto)) as (_ & w & Hw & _ & E). rewrite <- N2, <- E; auto.
Qed.
End Mul2.

(** ** C74: Fp12 = Fp2[w]/(w^6 - (xi0 + u)), [xi0] the const generic [XI_0] *)
Section Mul12.
Context (xi0 : Z) (Hxi : - 2 ^ 63 < xi0 < 2 ^ 63).
Notation lx := (log2_ceil (Z.abs xi0)).
Notation mulnc12 := (fp12_mul_no_carry ch xi0).
Theorem C74_no_carry : forall (a b c : vec) (ba bb bc : nat), vlimbs a ba -> vlimbs b bb -> vlimbs c bc ->
  sound lb (fp12_mul_no_carry ch xi0 a b) (fun o => length o = 12%nat /\ vlimbs o (lg + ba + bb + 9 + lx))
    (fun sg o => forall Ba Bb u v, overs (avs sg) a Ba u -> overs (avs sg) b Bb v -> overs (avs sg) o ((10 * Z.abs xi0 + 12) * (Ba * Bb)) (x12_mul xi0 u v)) /\
  sound lb (fp12_fp2_mul_no_carry ch a c) (fun o => length o = 12%nat /\ vlimbs o (lg + ba + bc + 1))
    (fun sg o => forall Ba Bc u y, overs (avs sg) a Ba u -> overs (avs sg) c Bc (l2 y) -> overs (avs sg) o (2 * (Ba * Bc)) (x12_scale u y)) /\
  (forall Ba Bb Bc u v y, length a = 12%nat -> length b = 12%nat -> hovers a Ba u -> hovers b Bb v -> hovers c Bc (l2 y) ->
     comp lb (oks (cells a ++ cells b)) (fp12_mul_no_carry ch xi0 a b) (fun o => hovers o ((10 * Z.abs xi0 + 12) * (Ba * Bb)) (x12_mul xi0 u v)) (fun rho o => oks (cells o) rho) /\
     comp lb (oks (cells a ++ cells c)) (fp12_fp2_mul_no_carry ch a c) (fun o => hovers o (2 * (Ba * Bc)) (x12_scale u y)) (fun rho o => oks (cells o) rho)).
Proof.
  intros a b c ba bb bc Ka Kb Kc. split; [|split].
  - pose proof (l12_mul_nc lb m Hp Hlb Hlb2 Hm1 ch n k HN HK (cells a ++ cells b) T False a b ba bb xi0 (vl _ a b) (vr _ a b) Ka Kb ltac:(intros []) Hxi) as H. snd H; [tauto|].
    intros sg o _ R Ba Bb u v Hu Hv. eapply vrep_overs, (R False Ba Bb u v); now apply overs_vrep.
  - pose proof (l12_fp2_mul_nc lb m Hp Hlb Hlb2 Hm1 ch n k HN HK (cells a ++ cells c) T False a c ba bc (vl _ a c) (vr _ a c) Ka Kc ltac:(intros [])) as H. snd H; [tauto|].
    intros sg o _ R Ba Bc u y Hu Hy. eapply vrep_overs, (R False Ba Bc u y); now apply overs_vrep.
  - intros Ba Bb Bc u v y La Lb Hu Hv Hy. pose proof (hovers_good _ _ _ _ _ Hu) as Ga. pose proof (hovers_good _ _ _ _ _ Hv) as Gb. pose proof (hovers_good _ _ _ _ _ Hy) as Gc.
    pose proof (hovers_vrep _ _ _ _ _ Hu) as Fu. pose proof (hovers_vrep _ _ _ _ _ Hv) as Fv. pose proof (hovers_vrep _ _ _ _ _ Hy) as Fy. pose proof (hovers_len _ _ _ _ _ Hy) as Lc. split.
    + pose proof (l12_mul_nc lb m Hp Hlb Hlb2 Hm1 ch n k HN HK (cells a ++ cells b) T True a b ba bb xi0 (vl _ a b) (vr _ a b) Ka Kb ltac:(auto) Hxi) as H. cmp H; [now apply Fapp2|].
      intros o (_ & Go & R). apply vrep_hovers; auto.
    + pose proof (l12_fp2_mul_nc lb m Hp Hlb Hlb2 Hm1 ch n k HN HK (cells a ++ cells c) T True a c ba bc (vl _ a c) (vr _ a c) Ka Kc ltac:(auto)) as H. cmp H; [now apply Fapp2|].
      intros o (_ & Go & R). apply vrep_hovers; auto.
Qed.
Theorem C74_conjugate : forall (a : vec), vlimbs_eq a n ->
  sound lb (fp12_conjugate lb ch a) (fun o => length o = 12%nat /\ vlimbs_eq o n) (fun sg o => forall u, carrieds (avs sg) a u -> carrieds (avs sg) o (x12_conj u)) /\
  (forall u, length a = 12%nat -> zcap (p:=p) n k -> hcarrieds a u ->
     comp lb (oks (cells a)) (fp12_conjugate lb ch a) (fun o => hcarrieds o (x12_conj u)) (fun rho o => oks (cells o) rho)).
Proof.
  intros a Ka. split.
  - pose proof (l12_conjugate lb m Hp Hlb Hlb2 Hm1 ch n k HN HK (cells a) T False a (incl_refl _) Ka ltac:(intros []) ltac:(intros [])) as H. snd H; [tauto|].
    intros sg o _ R x Hx. eapply vred_carrieds, (R False x); now apply carrieds_vred.
  - intros x La Hz Hx. pose proof (hcarrieds_good _ _ _ _ _ Hx) as Ga. pose proof (hcarrieds_vred _ _ _ HM _ _ Hx) as Fx.
    pose proof (l12_conjugate lb m Hp Hlb Hlb2 Hm1 ch n k HN HK (cells a) T True a (incl_refl _) Ka ltac:(auto) ltac:(intros _ _; exists x; exact Fx)) as H. cmp H.
    intros o ((_ & L & K) & Go & R). apply vred_hcarrieds; auto.
Qed.
Context (Hr : room (lg + n + n + 9 + lx + 1)) (HB : 8 * ((10 * Z.abs xi0 + 12) * (M2 * M2) + M2) < W).
(** fields/mod.rs:229-230 at Fp12, [a * b.invert().unwrap_or_default()], with the inversion of halo2curves' tower (ExtSpec2.v) *)
Definition quot12 (u v : list (F m)) : list (F m) := x12_mul xi0 u (x12_inv xi0 v).
Notation mul12 := (ext_mul lb ch mulnc12).
Notation divide12 := (ext_divide lb m ch 12 mulnc12 quot12).
Notation divide_unsafe12 := (ext_divide_unsafe lb m ch 12 mulnc12 quot12).
Let H2d : (0 < 12)%nat. Proof. lia. Qed.
Let Hnb : (n <= lg + n + n + 9 + lx)%nat. Proof. lia. Qed.
Let HMul := fp12_Hmul lb m Hp Hlb Hlb2 Hm1 ch n k HN HK xi0 (lg + n + n + 9 + lx) Hxi (Nat.le_refl _).
Let QL : forall u v : list (F m), length u = 12%nat -> length v = 12%nat -> length (quot12 u v) = 12%nat.
Proof. intros u v Hu Hv. apply x12_mul_length; auto. now apply x12_inv_length. Qed.
Lemma x12_quot (H3 : Z.pos m mod 4 = 3) w v u : length w = 12%nat -> length v = 12%nat -> x12_unit xi0 v = true -> x12_mul xi0 w v = u -> w = quot12 u v.
Proof.
  intros Lw Lv Uv <-. unfold quot12. pose proof (x12_inv_length xi0 v Lv). rewrite <- x12_mul_assoc, x12_inv_ok, x12_mul_1; auto.
Qed.
Lemma x12_quot' (H3 : Z.pos m mod 4 = 3) u v : length u = 12%nat -> length v = 12%nat -> x12_unit xi0 v = true -> x12_mul xi0 (quot12 u v) v = u.
Proof.
  intros Lw Lv Uv. unfold quot12. pose proof (x12_inv_length xi0 v Lv). rewrite <- x12_mul_assoc, (x12_mul_comm _ _ v), x12_inv_ok, x12_mul_1; auto.
Qed.
(** [x12_unit v]: [v] is invertible ([x12_unit_iff]); the quotient is pinned down exactly for invertible divisors *)
Theorem C74_mul_divide_sound : forall (a b : vec), ext_new_ok m = true -> vlimbs_eq a n -> vlimbs_eq b n ->
  sound lb (mul12 a b) (fun o => length o = 12%nat /\ vlimbs_eq o n)
    (fun sg o => forall u v, carrieds (avs sg) a u -> carrieds (avs sg) b v -> carrieds (avs sg) o (x12_mul xi0 u v)) /\
  sound lb (divide12 a b) (fun o => length o = 12%nat /\ vlimbs_eq o n)
    (fun sg o => forall u v, carrieds (avs sg) a u -> carrieds (avs sg) b v -> is0s m v = false /\
       exists w, carrieds (avs sg) o w /\ x12_mul xi0 w v = u /\ (x12_unit xi0 v = true -> w = x12_mul xi0 u (x12_inv xi0 v))) /\
  sound lb (divide_unsafe12 a b) (fun o => length o = 12%nat /\ vlimbs_eq o n)
    (fun sg o => forall u v, carrieds (avs sg) a u -> carrieds (avs sg) b v ->
       exists w, carrieds (avs sg) o w /\ x12_mul xi0 w v = u /\ (x12_unit xi0 v = true -> w = x12_mul xi0 u (x12_inv xi0 v))).
Proof.
  intros a b H3 Ka Kb. apply ext_new_mod in H3. split; [|split].
  - pose proof (v_mul lb m Hp Hlb Hlb2 Hm1 ch n k HN HK 12 _ _ _ _ H2d Hr Hnb HB HMul (cells a ++ cells b) T False a b (vl _ a b) (vr _ a b) Ka Kb ltac:(intros []) ltac:(intros [])) as H. snd H; [tauto|].
    intros sg o _ R x y Hx Hy. eapply vred_carrieds. apply (R False); now apply carrieds_vred.
  - pose proof (v_divide lb m Hp Hlb Hlb2 Hm1 ch n k HN HK 12 _ _ _ _ H2d (x12_mul_length xi0) Hr Hnb HB HMul (cells a ++ cells b) T False quot12 a b (vl _ a b) (vr _ a b) Ka Kb ltac:(intros []) ltac:(intros []) QL ltac:(intros [])) as H. snd H; [tauto|].
    intros sg o (_ & Lb & Lo & _) R x y Hx Hy. apply carrieds_vred in Hx, Hy. destruct (R False _ _ Hx Hy ltac:(tauto)) as (N & w & Hw & E & _).
    split; auto. exists w. split; [eapply vred_carrieds; eauto|]. split; auto. intros U. apply x12_quot; auto.
    + rewrite <- Lo. symmetry. eapply (vred_len lb m Hlb Hlb2); eauto.
    + rewrite <- Lb. symmetry. eapply (vred_len lb m Hlb Hlb2); eauto.
  - pose proof (v_divide_unsafe lb m Hp Hlb Hlb2 Hm1 ch n k HN HK 12 _ _ _ _ H2d (x12_mul_length xi0) Hr Hnb HB HMul (cells a ++ cells b) T False quot12 a b (vl _ a b) (vr _ a b) Ka Kb ltac:(intros []) QL ltac:(intros [])) as H. snd H; [tauto|].
    intros sg o (_ & Lb & Lo & _) R x y Hx Hy. apply carrieds_vred in Hx, Hy. destruct (R False _ _ Hx Hy ltac:(tauto)) as (w & Hw & E & _).
    exists w. split; [eapply vred_carrieds; eauto|]. split; auto. intros U. apply x12_quot; auto.
    + rewrite <- Lo. symmetry. eapply (vred_len lb m Hlb Hlb2); eauto.
    + rewrite <- Lb. symmetry. eapply (vred_len lb m Hlb Hlb2); eauto.
Qed.
Theorem C74_mul_divide_complete : forall (a b : vec) (u v : list (F m)), ext_new_ok m = true -> length a = 12%nat -> length b = 12%nat -> hcarrieds a u -> hcarrieds b v ->
  comp lb (oks (cells a ++ cells b)) (mul12 a b) (fun o => hcarrieds o (x12_mul xi0 u v)) (fun rho o => oks (cells o) rho) /\
  (x12_unit xi0 v = true ->
   comp lb (oks (cells a ++ cells b)) (divide_unsafe12 a b) (fun o => hcarrieds o (x12_mul xi0 u (x12_inv xi0 v))) (fun rho o => oks (cells o) rho) /\
   (zcap (p:=p) n k -> comp lb (oks (cells a ++ cells b)) (divide12 a b) (fun o => hcarrieds o (x12_mul xi0 u (x12_inv xi0 v))) (fun rho o => oks (cells o) rho))).
Proof.
  intros a b u v H3 La Lb Hx Hy. apply ext_new_mod in H3.
  pose proof (hcarrieds_good _ _ _ _ _ Hx) as Ga. pose proof (hcarrieds_good _ _ _ _ _ Hy) as Gb. pose proof (hcarrieds_vlimbs _ _ _ _ _ Hx) as Ka. pose proof (hcarrieds_vlimbs _ _ _ _ _ Hy) as Kb.
  pose proof (hcarrieds_vred _ _ _ HM _ _ Hx) as Fx. pose proof (hcarrieds_vred _ _ _ HM _ _ Hy) as Fy. pose proof (hcarrieds_len _ _ _ _ _ Hx) as Lu. pose proof (hcarrieds_len _ _ _ _ _ Hy) as Lv. rewrite La in Lu. rewrite Lb in Lv.
  assert (LL : True -> length a = 12%nat /\ length b = 12%nat) by auto.
  split; [|intros N; split; [|intros Hz]].
  - pose proof (v_mul lb m Hp Hlb Hlb2 Hm1 ch n k HN HK 12 _ _ _ _ H2d Hr Hnb HB HMul (cells a ++ cells b) T True a b (vl _ a b) (vr _ a b) Ka Kb LL ltac:(intros _ _; eauto)) as H. cmp H; [now apply Fapp2|].
    intros o ((_ & _ & L & K) & Go & R). apply vred_hcarrieds; auto.
  - pose proof (v_divide_unsafe lb m Hp Hlb Hlb2 Hm1 ch n k HN HK 12 _ _ _ _ H2d (x12_mul_length xi0) Hr Hnb HB HMul (cells a ++ cells b) T True quot12 a b (vl _ a b) (vr _ a b) Ka Kb LL QL
      ltac:(intros _ _; exists u, v; split; [exact Fx|split; [exact Fy|]]; now apply x12_quot')) as H. cmp H; [now apply Fapp2|].
    intros o ((_ & _ & L & K) & Go & R). apply vred_hcarrieds; auto. destruct (R True _ _ Fx Fy ltac:(auto)) as (w & Hw & _ & E). unfold quot12 in E. rewrite <- E; auto.
  - assert (Z0 : forallb Fis0 v = false).
    { destruct (forallb Fis0 v) eqn:E; auto. exfalso.
      assert (V0 : v = repeat F0 12). { rewrite Lv. clear - E. induction v as [|x v IH]; auto. cbn [forallb] in E. apply andb_true_iff in E as [E1 E2]. cbn [length repeat]. f_equal; [now apply Fis0_true|auto]. }
      rewrite V0, x12_unit_0 in N. discriminate. }
    pose proof (v_divide lb m Hp Hlb Hlb2 Hm1 ch n k HN HK 12 _ _ _ _ H2d (x12_mul_length xi0) Hr Hnb HB HMul (cells a ++ cells b) T True quot12 a b (vl _ a b) (vr _ a b) Ka Kb LL ltac:(auto) QL
      ltac:(intros _ _; exists u, v; split; [exact Fx|split; [exact Fy|split]]; [now apply x12_quot'|exact Z0])) as H. cmp H; [now apply Fapp2|].
    intros o ((_ & _ & L & K) & Go & R). apply vred_hcarrieds; auto. destruct (R True _ _ Fx Fy ltac:(auto)) as (_ & w & Hw & _ & E). unfold quot12 in E. rewrite <- E; auto.
Qed.
(** the product is the one of halo2curves' tower, coordinate conversion included (fp12.rs:221-252) *)
Theorem C74_tower : forall x y : tower (m:=m), ext_new_ok m = true -> tower_new (x12_mul xi0 (tower_coeffs x) (tower_coeffs y)) = Some (tower_mul xi0 x y) /\
  (x12_unit xi0 (tower_coeffs x) = true <-> exists z, tower_mul xi0 x z = tower_1) /\ tower_new (tower_coeffs x) = Some x.
Proof.
  intros x y H3. split; [|split].
  - rewrite <- tower_mul_ok. apply tower_new_coeffs.
  - split.
    + intros U. exists (tower_inv xi0 x). apply tower_inv_ok; auto. { now apply ext_new_mod. } unfold x12_unit in U. rewrite tower_new_coeffs in U. apply negb_true_iff in U. intros E. apply x2_is0_eq in E. congruence.
    + intros (z & E). apply (x12_unit_iff xi0 Hm (ext_new_mod H3)); [destruct x as [[[[] []] []] [[[] []] []]]; reflexivity|]. exists (tower_coeffs z). split; [destruct z as [[[[] []] []] [[[] []] []]]; reflexivity|].
      rewrite <- tower_mul_ok, E. reflexivity.
  - apply tower_new_coeffs.
Qed.
End Mul12.
End Ext.

(** ** The hypotheses hold for BN254 (base field [bn_q] over the scalar field [bn_r], 3 limbs of 88 bits, 17 lookup bits, XI_0 = 9) *)
Section Instance.
Local Open Scope monad_scope.
Notation lb := 17%nat.
Notation n := 88%nat.
Notation k := 3%nat.
Example bn_new_ok : ext_new_ok bn_q = true. Proof. vm_compute. reflexivity. Qed.
Example bn_room2 : room (p:=bn_r) lb n k (log2_ceil (Z.of_nat k) + n + n + 1 + 1). Proof. unfold room. rewrite bn_cap. apply Nat.leb_le. vm_compute. reflexivity. Qed.
Example bn_room12 : room (p:=bn_r) lb n k (log2_ceil (Z.of_nat k) + n + n + 9 + log2_ceil (Z.abs 9) + 1). Proof. unfold room. rewrite bn_cap. apply Nat.leb_le. vm_compute. reflexivity. Qed.
Example bn_bound2 : 8 * (2 * (2 ^ Z.of_nat (bits (Z.pos bn_q)) * 2 ^ Z.of_nat (bits (Z.pos bn_q))) + 2 ^ Z.of_nat (bits (Z.pos bn_q))) < 2 ^ Z.of_nat (n * k + NUM_BITS bn_r).
Proof. rewrite bn_bits, bn_nb. vm_compute. reflexivity. Qed.
Example bn_bound12 : 8 * ((10 * Z.abs 9 + 12) * (2 ^ Z.of_nat (bits (Z.pos bn_q)) * 2 ^ Z.of_nat (bits (Z.pos bn_q))) + 2 ^ Z.of_nat (bits (Z.pos bn_q))) < 2 ^ Z.of_nat (n * k + NUM_BITS bn_r).
Proof. rewrite bn_bits, bn_nb. vm_compute. reflexivity. Qed.
Let H1 : (1 <= lb < 64)%nat. Proof. lia. Qed.
Let H2 : (2 * lb <= CAPACITY bn_r)%nat. Proof. rewrite bn_cap. lia. Qed.
Notation z := (of_Z bn_q).
(** load 3 + 5u and 7 + 11u, multiply, divide by 7 + 11u, compare with 3 + 5u: the honest prover completes and gets -34 + 68u, 3 + 5u and 1 *)
Example C73_example : forall ch, fpchip_new (p:=bn_r) bn_q n k = Some ch ->
  comp lb (fun _ => True)
    (a <- vec_load_private lb bn_q ch [z 3; z 5] ;; b <- vec_load_private lb bn_q ch [z 7; z 11] ;; c <- ext_mul lb ch (fp2_mul_no_carry ch) a b ;;
     d <- ext_divide lb bn_q ch 2 (fp2_mul_no_carry ch) (quot2 bn_q) c b ;; o <- vec_is_equal lb ch d a ;; ret (c, d, o))
    (fun r => let '(c, d, o) := r in hcarrieds bn_q n k c [z (-34); z 68] /\ hcarrieds bn_q n k d [z 3; z 5] /\ hval o = F1) (fun _ _ => True).
Proof.
  intros ch HN. pose proof bn_fp_params as HK. pose proof bn_zcap as HZ. pose proof bn254_r_prime as Hp. pose proof bn254_q_prime as Hq.
  assert (HL : forall v, _) by exact (fun v => proj1 (proj2 (proj2 (proj2 (C72_load bn_r bn_q lb Hp H1 H2 Hq n k ch HN HK v))))).
  eapply comp_bind; [apply HL|cbv beta; auto|]. cbv beta. intros a Ha.
  eapply comp_bind; [apply HL|cbv beta; auto|]. cbv beta. intros b Hb.
  eapply comp_bind; [apply (C73_mul_divide_complete bn_r bn_q lb Hp H1 H2 Hq n k ch HN HK bn_room2 bn_bound2 a b (z 3, z 5) (z 7, z 11) bn_new_ok Ha Hb)| |].
  { cbv beta. intros rho [[_ A] B]. now apply Fapp2. }
  cbv beta. intros c Hc.
  assert (N7 : (z 7, z 11) <> x2_0). { intros E. apply (f_equal (fun x => val (fst x))) in E. vm_compute in E. discriminate. }
  destruct (C73_mul_divide_complete bn_r bn_q lb Hp H1 H2 Hq n k ch HN HK bn_room2 bn_bound2 c b _ (z 7, z 11) bn_new_ok Hc Hb) as [_ X]. destruct (X N7) as (_ & _ & Y). destruct (Y HZ) as [D _].
  eapply comp_bind; [exact D| |].
  { cbv beta. intros rho [[[_ A] B] C]. now apply Fapp2. }
  cbv beta. intros d Hd.
  rewrite <- (x2_quot bn_q Hq (proj1 (Z.eqb_eq _ _) (eq_refl : (Z.pos bn_q mod 4 =? 3) = true)) (z 3, z 5) _ (z 7, z 11) N7 eq_refl) in Hd. unfold l2 in Hd. cbn [fst Datatypes.snd] in Hd.
  assert (Nd : d <> []) by (intros ->; inversion Hd).
  assert (Ld : length d = length a) by (apply hcarrieds_len in Hd, Ha; congruence).
  eapply comp_bind; [apply (C72_tests_complete bn_r bn_q lb Hp H1 H2 Hq n k ch HN HK d a _ _ Nd Ld HZ Hd Ha)| |].
  { cbv beta. intros rho [[[[_ A] B] C] D']. now apply Fapp2. }
  cbv beta. intros o [Go Ho]. apply comp_ret; auto.
Qed.
(** multiply [(1 + 7u) + (2 + 8u) w + ... + (6 + 12u) w^5] by [w], and divide by [w] again *)
Notation e12 := [z 1; z 2; z 3; z 4; z 5; z 6; z 7; z 8; z 9; z 10; z 11; z 12].
Notation w12 := [z 0; z 1; z 0; z 0; z 0; z 0; z 0; z 0; z 0; z 0; z 0; z 0].
Example C74_example : forall ch, fpchip_new (p:=bn_r) bn_q n k = Some ch ->
  comp lb (fun _ => True)
    (a <- vec_load_private lb bn_q ch e12 ;; b <- vec_load_private lb bn_q ch w12 ;; c <- ext_mul lb ch (fp12_mul_no_carry ch 9) a b ;;
     d <- ext_divide lb bn_q ch 12 (fp12_mul_no_carry ch 9) (quot12 bn_q 9) c b ;; ret (c, d))
    (fun r => let '(c, d) := r in hcarrieds bn_q n k c [z 42; z 1; z 2; z 3; z 4; z 5; z 114; z 7; z 8; z 9; z 10; z 11] /\ hcarrieds bn_q n k d e12) (fun _ _ => True).
Proof.
  intros ch HN. pose proof bn_fp_params as HK. pose proof bn_zcap as HZ. pose proof bn254_r_prime as Hp. pose proof bn254_q_prime as Hq.
  assert (HL : forall v, _) by exact (fun v => proj1 (proj2 (proj2 (proj2 (C72_load bn_r bn_q lb Hp H1 H2 Hq n k ch HN HK v))))).
  eapply comp_bind; [apply HL|cbv beta; auto|]. cbv beta. intros a Ha.
  eapply comp_bind; [apply HL|cbv beta; auto|]. cbv beta. intros b Hb.
  assert (Hxi : - 2 ^ 63 < 9 < 2 ^ 63) by lia. pose proof (hcarrieds_len _ _ _ _ _ Ha) as La. pose proof (hcarrieds_len _ _ _ _ _ Hb) as Lb. 
  eapply comp_bind; [apply (C74_mul_divide_complete bn_r bn_q lb Hp H1 H2 Hq n k ch HN HK 9 Hxi bn_room12 bn_bound12 a b _ _ bn_new_ok La Lb Ha Hb)| |].
  { cbv beta. intros rho [[_ A] B]. now apply Fapp2. }
  cbv beta. intros c Hc. assert (Lc : length c = 12%nat) by (apply hcarrieds_len in Hc; rewrite Hc; now apply x12_mul_length).
  assert (U : x12_unit 9 w12 = true) by (vm_compute; reflexivity).
  destruct (C74_mul_divide_complete bn_r bn_q lb Hp H1 H2 Hq n k ch HN HK 9 Hxi bn_room12 bn_bound12 c b _ _ bn_new_ok Lc Lb Hc Hb) as [_ X]. destruct (X U) as (_ & D). 
  eapply comp_bind; [exact (D HZ)| |].
  { cbv beta. intros rho [[[_ A] B] C]. now apply Fapp2. }
  cbv beta. intros d Hd.
  pose proof (x12_quot bn_q Hq 9 (proj1 (Z.eqb_eq _ _) (eq_refl : (Z.pos bn_q mod 4 =? 3) = true)) e12 w12 _ eq_refl eq_refl U eq_refl) as E. unfold quot12 in E. rewrite <- E in Hd.
  apply comp_ret; auto.
Qed.
End Instance.
