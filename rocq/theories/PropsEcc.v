(** Property theorems C54-C57 about the curve gadgets (halo2-ecc/src/ecc/mod.rs) over [FpChip].
    Reading guide: [sound]/[comp] as in PropsGate.v, [carried]/[canonical]/[hcarried] as in PropsFp.v, the group law [eadd]/[eneg] as in EcGroup.v. *)
From Coq Require Import ZArith Znumtheory Lia List Bool Ring.
From Verif Require Import Field Spec Context ContextProofs Utils Logic Gate GateProofs ChainProofs IPProofs BitProofs PowProofs IPComp Derived Calc CalcH
  Range RangeProofs RangeProofs2 RangeProofs3 BigInt BigSpec BigNum BigPrims BigOps BigSel BigCmp BigSub BigCarry BigMod BigCrtNum BigCrt
  FpChip FpProofs FpProofs2 FpProofs3 FpField FpField2 FpField3 Bn254Primes PropsBigInt PropsFp EcGroup EccFacts SafeTypes Ecc EccProofs EccProofs2 EccProofs3.
Import ListNotations.
Local Open Scope Z_scope.

Section EccSpec.
Context {p : positive} (m : positive) (n k : nat).
(** Under the cell values [e], the two coordinates of [P] represent [x] and [y] (integers of at most [bits m] bits in [n]-bit limbs). *)
Definition at_pt (e : env (p:=p)) (P : ecpt p) (x y : F m) : Prop := carried m n e (px P) x /\ carried m n e (py P) y.
(** The same for an operand of a comparison: a strict point also has a canonical x-coordinate (that is what makes it strict). *)
Definition at_cmp (e : env (p:=p)) (P : comparable p) (x y : F m) : Prop :=
  match P with Strict P => at_pt e P x y /\ canonical m n e (px P) x | NonStrict P => at_pt e P x y end.
(** the honest prover's version *)
Definition hat_pt (P : ecpt p) (x y : F m) : Prop := hcarried m n k (px P) x /\ hcarried m n k (py P) y.
(** both coordinates have [k] limbs of [n] bits *)
Definition shape (P : ecpt p) : Prop := isk k (px P) n /\ isk k (py P) n.
End EccSpec.

Section Ecc.
Context (p m : positive) (lb : nat) (Hp : prime (Z.pos p)) (Hlb : (1 <= lb < 64)%nat) (Hlb2 : (2 * lb <= CAPACITY p)%nat) (Hm : prime (Z.pos m)) (H3 : 3 < Z.pos m).
Context (n k : nat) (ch : fpchip p) (HN : fpchip_new m n k = Some ch) (HK : fp_params (p:=p) lb m n k).
Notation M2 := (2 ^ Z.of_nat (bits (Z.pos m))).
Notation W := (2 ^ Z.of_nat (n * k + NUM_BITS p)).
Notation lg := (log2_ceil (Z.of_nat k)).
(** room for the formulas: limbs of the unreduced results stay below the native field, their values below the CRT modulus *)
Context (HE1 : (Nat.max (lg + 2 * n + 5) (2 * n + bit_length (Z.of_nat k)) + lb + 2 <= CAPACITY p)%nat) (HE2 : 64 * (M2 * M2) < W).
(** the curve y^2 = x^3 + b, non-singular *)
Context (b : F m) (Hb : b <> F0).
Notation ecpt := (ecpt p).
Notation comparable := (comparable p).
Notation at_pt := (at_pt (p:=p) m n).
Notation at_cmp := (at_cmp (p:=p) m n).
Notation hat_pt := (hat_pt (p:=p) m n k).
Notation shape := (shape (p:=p) n k).
Notation onc2 := (onc2 m b).
Notation eadd := (eadd m).
Notation eneg := (eneg m).
Notation U := (fun _ _ => True).
Notation T := (fun _ => True).
Notation pcells P := (ccells (px P) ++ ccells (py P)).
Notation okp := (fun (rho : cell -> F p) P => oks (pcells P) rho).
Let Hm1 : 1 < Z.pos m. Proof. lia. Qed.
Let HM : Z.pos m < M2. Proof. exact (m_le_M2 lb m Hlb Hlb2 Hm1). Qed.
Let TT : env (p:=p) -> Prop := fun _ => True.
Add Ring Fringm : (F_ring m) (morphism (F_morph m), constants [Fcst]).
Ltac snd H := eapply sound_weaken; [apply (h_sound lb _ _ _ _ _ H)|cbv beta|cbv beta]; auto.
Ltac cmp H := eapply comp_weaken; [apply (h_comp lb _ _ _ _ _ H)|cbv beta|cbv beta|cbv beta]; auto.

Lemma at_pred e P x y : at_pt e P x y -> pred m n False e P x y.
Proof. intros [A B]. split; now apply carried_fred. Qed.
Lemma pred_at h e P x y : pred m n h e P x y -> at_pt e P x y.
Proof. intros [A B]. split; eapply fred_carried; eauto. Qed.
Lemma canonical_fcan e c v : canonical m n e c v -> fcan m n (p:=p) False e c v.
Proof. intros H. pose proof (val_bounds m v). exists (val v). split; auto. split; [lia|]. split; [apply of_Z_val|tauto]. Qed.
Lemma at_cpred e P x y : at_cmp e P x y -> cpred m n False e P x y.
Proof. destruct P; cbn; [intros [A B]; split; [now apply at_pred|now apply canonical_fcan]|intros A; split; [now apply at_pred|exact I]]. Qed.
Lemma hat_pred P x y : hat_pt P x y -> pred m n True hval P x y.
Proof. intros [A B]. split; eapply hcarried_fred; eauto. Qed.
Lemma hat_cpred P x y : hat_pt (cpt P) x y -> cpred m n True hval P x y.
Proof. intros A. split; [now apply hat_pred|]. destruct P; auto. apply (fred_hon_can m); auto. apply (hat_pred _ _ _ A). Qed.
Lemma pred_hat P x y : Forall good (pcells P) -> shape P -> pred m n True hval P x y -> hat_pt P x y.
Proof. intros G [K1 K2] [A B]. apply Forall_app in G as [G1 G2]. split; apply fred_hcarried; auto. Qed.
Lemma hat_good P x y : hat_pt P x y -> Forall good (pcells P).
Proof. intros [[A _] [B _]]. now apply Forall_app. Qed.
Lemma ppre1 (P : ecpt) : ppre (pcells P) P. Proof. apply incl_refl. Qed.
Lemma ppre2l (P Q : ecpt) : ppre (pcells P ++ pcells Q) P. Proof. apply incl_appl, incl_refl. Qed.
Lemma ppre2r (P Q : ecpt) : ppre (pcells P ++ pcells Q) Q. Proof. apply incl_appr, incl_refl. Qed.

(** ** C54: the addition formulas compute the group law *)
Theorem C54_add_unequal_sound : forall (P Q : comparable) (is_strict : bool), shape (cpt P) -> shape (cpt Q) ->
  sound lb (ec_add_unequal lb m ch P Q is_strict) shape
    (fun sg R => forall x1 y1 x2 y2, at_cmp (avs sg) P x1 y1 -> at_cmp (avs sg) Q x2 y2 -> (is_strict = false -> x1 <> x2) ->
       x1 <> x2 /\ exists x3 y3, at_pt (avs sg) R x3 y3 /\ eadd (Some (x1, y1)) (Some (x2, y2)) = Some (x3, y3)).
Proof.
  intros P Q st KP KQ. pose proof (l_add_unequal lb m Hp Hlb Hlb2 Hm1 ch n k HN HK HE1 HE2 Hm (pcells (cpt P) ++ pcells (cpt Q)) TT False P Q st (ppre2l _ _) (ppre2r _ _) KP KQ ltac:(tauto)) as H. snd H.
  intros sg R _ HR x1 y1 x2 y2 A B C. destruct (HR False x1 y1 x2 y2) as (S1 & s & S2 & S3); auto using at_cpred; try tauto.
  assert (D : x1 <> x2) by (destruct st; auto). split; auto. do 2 eexists. split; [eapply pred_at; exact S3|]. now apply add_of_slope.
Qed.
Theorem C54_add_unequal_complete : forall (P Q : comparable) (is_strict : bool) x1 y1 x2 y2, shape (cpt P) -> shape (cpt Q) ->
  hat_pt (cpt P) x1 y1 -> hat_pt (cpt Q) x2 y2 -> x1 <> x2 ->
  comp lb (oks (pcells (cpt P) ++ pcells (cpt Q))) (ec_add_unequal lb m ch P Q is_strict)
    (fun R => exists x3 y3, hat_pt R x3 y3 /\ eadd (Some (x1, y1)) (Some (x2, y2)) = Some (x3, y3)) okp.
Proof.
  intros P Q st x1 y1 x2 y2 KP KQ HP HQ D.
  pose proof (l_add_unequal lb m Hp Hlb Hlb2 Hm1 ch n k HN HK HE1 HE2 Hm (pcells (cpt P) ++ pcells (cpt Q)) TT True P Q st (ppre2l _ _) (ppre2r _ _) KP KQ
    ltac:(intros _ _; exists x1, y1, x2, y2; auto using hat_cpred)) as H. cmp H.
  - apply Forall_app; split; eauto using hat_good.
  - intros R (KR & GR & HR). destruct (HR True x1 y1 x2 y2) as (_ & s & S2 & S3); auto using hat_cpred.
    do 2 eexists. split; [apply pred_hat; [exact GR|exact KR|exact S3]|]. now apply add_of_slope.
Qed.
Theorem C54_sub_unequal_sound : forall (P Q : comparable) (is_strict : bool), shape (cpt P) -> shape (cpt Q) ->
  sound lb (ec_sub_unequal lb m ch P Q is_strict) shape
    (fun sg R => forall x1 y1 x2 y2, at_cmp (avs sg) P x1 y1 -> at_cmp (avs sg) Q x2 y2 -> (is_strict = false -> x1 <> x2) ->
       x1 <> x2 /\ exists x3 y3, at_pt (avs sg) R x3 y3 /\ eadd (Some (x1, y1)) (eneg (Some (x2, y2))) = Some (x3, y3)).
Proof.
  intros P Q st KP KQ. pose proof (l_sub_unequal lb m Hp Hlb Hlb2 Hm1 ch n k HN HK HE1 HE2 Hm (pcells (cpt P) ++ pcells (cpt Q)) TT False P Q st (ppre2l _ _) (ppre2r _ _) KP KQ ltac:(tauto)) as H. snd H.
  intros sg R _ HR x1 y1 x2 y2 A B C. destruct (HR False x1 y1 x2 y2) as (S1 & s & S2 & S3); auto using at_cpred; try tauto.
  assert (D : x1 <> x2) by (destruct st; auto). split; auto. do 2 eexists. split; [eapply pred_at; exact S3|]. now apply add_of_slope.
Qed.
Theorem C54_sub_unequal_complete : forall (P Q : comparable) (is_strict : bool) x1 y1 x2 y2, shape (cpt P) -> shape (cpt Q) ->
  hat_pt (cpt P) x1 y1 -> hat_pt (cpt Q) x2 y2 -> x1 <> x2 ->
  comp lb (oks (pcells (cpt P) ++ pcells (cpt Q))) (ec_sub_unequal lb m ch P Q is_strict)
    (fun R => exists x3 y3, hat_pt R x3 y3 /\ eadd (Some (x1, y1)) (eneg (Some (x2, y2))) = Some (x3, y3)) okp.
Proof.
  intros P Q st x1 y1 x2 y2 KP KQ HP HQ D.
  pose proof (l_sub_unequal lb m Hp Hlb Hlb2 Hm1 ch n k HN HK HE1 HE2 Hm (pcells (cpt P) ++ pcells (cpt Q)) TT True P Q st (ppre2l _ _) (ppre2r _ _) KP KQ
    ltac:(intros _ _; exists x1, y1, x2, y2; auto using hat_cpred)) as H. cmp H.
  - apply Forall_app; split; eauto using hat_good.
  - intros R (KR & GR & HR). destruct (HR True x1 y1 x2 y2) as (_ & s & S2 & S3); auto using hat_cpred.
    do 2 eexists. split; [apply pred_hat; [exact GR|exact KR|exact S3]|]. now apply add_of_slope.
Qed.
(** doubling: the constraints alone exclude the points of order two (there is no affine result for them) *)
Theorem C54_double_sound : forall P : ecpt, shape P ->
  sound lb (ec_double lb m ch P) shape
    (fun sg R => forall x y, at_pt (avs sg) P x y -> onc2 x y ->
       y <> F0 /\ exists x3 y3, at_pt (avs sg) R x3 y3 /\ eadd (Some (x, y)) (Some (x, y)) = Some (x3, y3)).
Proof.
  intros P KP. pose proof (l_double lb m Hp Hlb Hlb2 Hm1 ch n k HN HK HE1 HE2 Hm (pcells P) TT False P (ppre1 _) KP ltac:(tauto) H3) as H. snd H.
  intros sg R _ HR x y A C. destruct (HR False x y) as (s & S1 & S2); [now apply at_pred|tauto|].
  pose proof (dbl_nonzero m Hm H3 b x y s Hb C S1) as Hy. split; auto. do 2 eexists. split; [eapply pred_at; exact S2|]. now apply (dbl_of_slope m Hm H3).
Qed.
Theorem C54_double_complete : forall (P : ecpt) x y, shape P -> hat_pt P x y -> y <> F0 ->
  comp lb (oks (pcells P)) (ec_double lb m ch P) (fun R => exists x3 y3, hat_pt R x3 y3 /\ eadd (Some (x, y)) (Some (x, y)) = Some (x3, y3)) okp.
Proof.
  intros P x y KP HP Hy. pose proof (l_double lb m Hp Hlb Hlb2 Hm1 ch n k HN HK HE1 HE2 Hm (pcells P) TT True P (ppre1 _) KP ltac:(intros _ _; exists x, y; auto using hat_pred) H3) as H. cmp H.
  - eauto using hat_good.
  - intros R (KR & GR & HR). destruct (HR True x y) as (s & S1 & S2); auto using hat_pred.
    do 2 eexists. split; [apply pred_hat; [exact GR|exact KR|exact S2]|]. now apply (dbl_of_slope m Hm H3).
Qed.
(** [ec_double_and_add_unequal P Q] is [2P + Q], computed as [P + (P + Q)] *)
Theorem C54_double_and_add_sound : forall (P Q : comparable), shape (cpt P) -> shape (cpt Q) ->
  sound lb (ec_double_and_add_unequal lb m ch P Q true) shape
    (fun sg R => forall x0 y0 x1 y1, at_cmp (avs sg) P x0 y0 -> at_cmp (avs sg) Q x1 y1 ->
       x0 <> x1 /\ exists x3 y3, at_pt (avs sg) R x3 y3 /\ eadd (Some (x0, y0)) (eadd (Some (x0, y0)) (Some (x1, y1))) = Some (x3, y3)).
Proof.
  intros P Q KP KQ. pose proof (l_daa lb m Hp Hlb Hlb2 Hm1 ch n k HN HK HE1 HE2 Hm (pcells (cpt P) ++ pcells (cpt Q)) TT False P Q true (ppre2l _ _) (ppre2r _ _) KP KQ ltac:(tauto)) as H. snd H.
  intros sg R _ HR x0 y0 x1 y1 A B. destruct (HR False x0 y0 x1 y1) as (s0 & d & S1 & S2 & S3 & S4); auto using at_cpred; try tauto.
  destruct (S2 eq_refl) as [D1 D2]. split; auto. do 2 eexists. split; [eapply pred_at; exact S4|].
  destruct (daa_of_slope m Hm x0 y0 x1 y1 s0 d D1 D2 S1 S3) as (Q' & E1 & _ & E2). now rewrite E1, E2.
Qed.
(** without the checks, for operands known to be unequal *)
Theorem C54_double_and_add_unchecked_sound : forall (P Q : comparable), shape (cpt P) -> shape (cpt Q) ->
  sound lb (ec_double_and_add_unequal lb m ch P Q false) shape
    (fun sg R => forall x0 y0 x1 y1 x2 y2, at_cmp (avs sg) P x0 y0 -> at_cmp (avs sg) Q x1 y1 ->
       x0 <> x1 -> eadd (Some (x0, y0)) (Some (x1, y1)) = Some (x2, y2) -> x2 <> x0 ->
       exists x3 y3, at_pt (avs sg) R x3 y3 /\ eadd (Some (x0, y0)) (Some (x2, y2)) = Some (x3, y3)).
Proof.
  intros P Q KP KQ. pose proof (l_daa lb m Hp Hlb Hlb2 Hm1 ch n k HN HK HE1 HE2 Hm (pcells (cpt P) ++ pcells (cpt Q)) TT False P Q false (ppre2l _ _) (ppre2r _ _) KP KQ ltac:(tauto)) as H. snd H.
  intros sg R _ HR x0 y0 x1 y1 x2 y2 A B D1 E D2. destruct (HR False x0 y0 x1 y1) as (s0 & d & S1 & _ & S3 & S4); auto using at_cpred; try tauto.
  rewrite (add_of_slope m Hm x0 y0 x1 y1 s0 D1 S1) in E. injection E as <- <-.
  do 2 eexists. split; [eapply pred_at; exact S4|].
  destruct (daa_of_slope m Hm x0 y0 x1 y1 s0 d D1 D2 S1 S3) as (Q' & E1 & _ & E2). rewrite (add_of_slope m Hm x0 y0 x1 y1 s0 D1 S1) in E1. injection E1 as <-. exact E2.
Qed.
Theorem C54_double_and_add_complete : forall (P Q : comparable) (is_strict : bool) x0 y0 x1 y1 x2 y2, shape (cpt P) -> shape (cpt Q) ->
  hat_pt (cpt P) x0 y0 -> hat_pt (cpt Q) x1 y1 -> x0 <> x1 -> eadd (Some (x0, y0)) (Some (x1, y1)) = Some (x2, y2) -> x2 <> x0 ->
  comp lb (oks (pcells (cpt P) ++ pcells (cpt Q))) (ec_double_and_add_unequal lb m ch P Q is_strict)
    (fun R => exists x3 y3, hat_pt R x3 y3 /\ eadd (Some (x0, y0)) (Some (x2, y2)) = Some (x3, y3)) okp.
Proof.
  intros P Q st x0 y0 x1 y1 x2 y2 KP KQ HP HQ D1 E D2.
  assert (OK : daa_ok m x0 y0 x1 y1). { split; auto. intros s S1. rewrite (add_of_slope m Hm x0 y0 x1 y1 s D1 S1) in E. injection E as <- <-. exact D2. }
  pose proof (l_daa lb m Hp Hlb Hlb2 Hm1 ch n k HN HK HE1 HE2 Hm (pcells (cpt P) ++ pcells (cpt Q)) TT True P Q st (ppre2l _ _) (ppre2r _ _) KP KQ
    ltac:(intros _ _; exists x0, y0, x1, y1; auto using hat_cpred)) as H. cmp H.
  - apply Forall_app; split; eauto using hat_good.
  - intros R (KR & GR & HR). destruct (HR True x0 y0 x1 y1) as (s0 & d & S1 & _ & S3 & S4); auto using hat_cpred.
    rewrite (add_of_slope m Hm x0 y0 x1 y1 s0 D1 S1) in E. injection E as <- <-.
    do 2 eexists. split; [apply pred_hat; [exact GR|exact KR|exact S4]|].
    destruct (daa_of_slope m Hm x0 y0 x1 y1 s0 d D1 D2 S1 S3) as (Q' & E1 & _ & E2). rewrite (add_of_slope m Hm x0 y0 x1 y1 s0 D1 S1) in E1. injection E1 as <-. exact E2.
Qed.

(** ** C55: curve membership *)
Theorem C55_check_is_on_curve : forall P : ecpt, shape P ->
  sound lb (check_is_on_curve lb m ch b P) T (fun sg _ => forall x y, at_pt (avs sg) P x y -> onc2 x y) /\
  (forall x y, hat_pt P x y -> onc2 x y -> comp lb (oks (pcells P)) (check_is_on_curve lb m ch b P) T U).
Proof.
  intros P KP. split.
  - pose proof (l_check_on_curve lb m Hp Hlb Hlb2 Hm1 ch n k HN HK HE1 HE2 (pcells P) TT False b P (ppre1 _) KP ltac:(tauto)) as H. snd H.
    intros sg _ _ R x y A. apply (R False). now apply at_pred.
  - intros x y HP HC. pose proof (l_check_on_curve lb m Hp Hlb Hlb2 Hm1 ch n k HN HK HE1 HE2 (pcells P) TT True b P (ppre1 _) KP ltac:(intros _ _; exists x, y; auto using hat_pred)) as H. cmp H.
    eauto using hat_good.
Qed.
(** points assigned by the prover are on the curve, and the honest prover can assign every point of the curve *)
Theorem C55_load_private : forall x y : F m,
  sound lb (ecc_load_private lb m ch b x y) shape (fun sg P => exists u v, at_pt (avs sg) P u v /\ onc2 u v) /\
  sound lb (load_random_point lb m ch b x y) shape (fun sg P => exists u v, at_pt (avs sg) P u v /\ onc2 u v) /\
  (onc2 x y -> comp lb T (ecc_load_private lb m ch b x y) (fun P => hat_pt P x y) okp /\ comp lb T (load_random_point lb m ch b x y) (fun P => hat_pt P x y) okp).
Proof.
  intros x y. split; [|split].
  - pose proof (l_load lb m Hp Hlb Hlb2 Hm1 ch n k HN HK HE1 HE2 [] TT False b x y ltac:(tauto)) as H. snd H.
    intros sg P _ (u & v & C & A & _). exists u, v. split; auto. apply (pred_at False). apply A. tauto.
  - pose proof (l_load_random lb m Hp Hlb Hlb2 Hm1 ch n k HN HK HE1 HE2 [] TT False b x y ltac:(tauto)) as H. snd H.
    intros sg P _ (u & v & C & A & _). exists u, v. split; auto. apply (pred_at False). apply A. tauto.
  - intros HC. split.
    + pose proof (l_load lb m Hp Hlb Hlb2 Hm1 ch n k HN HK HE1 HE2 [] TT True b x y ltac:(auto)) as H. cmp H.
      intros P (K & G & u & v & C & A & E). destruct (E eq_refl) as [-> ->]. apply pred_hat; auto.
    + pose proof (l_load_random lb m Hp Hlb Hlb2 Hm1 ch n k HN HK HE1 HE2 [] TT True b x y ltac:(auto)) as H. cmp H.
      intros P (K & G & u & v & C & A & E). destruct (E eq_refl) as [-> ->]. apply pred_hat; auto.
Qed.
(** the flag is 1 exactly for a point of the curve or (0, 0), which stands for infinity *)
Theorem C55_is_on_curve_or_infinity : forall P : ecpt, shape P ->
  sound lb (is_on_curve_or_infinity lb m ch b P) T
    (fun sg o => forall x y, at_pt (avs sg) P x y -> (avs sg o = F1 /\ (onc2 x y \/ x = F0 /\ y = F0)) \/ (avs sg o = F0 /\ ~ (onc2 x y \/ x = F0 /\ y = F0))) /\
  (forall x y, zcap (p:=p) n k -> hat_pt P x y -> comp lb (oks (pcells P)) (is_on_curve_or_infinity lb m ch b P) good (fun rho o => av_ok rho o)).
Proof.
  intros P KP. split.
  - pose proof (l_on_curve_or_inf lb m Hp Hlb Hlb2 Hm1 ch n k HN HK HE1 HE2 (pcells P) TT False b P (ppre1 _) KP ltac:(tauto) ltac:(tauto)) as H. snd H.
    intros sg o _ R x y A. rewrite (R False x y) by (now apply at_pred).
    pose proof (onc_inf_b m b x y) as I0. unfold onc_inf in I0. destruct (_ || _).
    + left. split; [reflexivity|]. now apply I0.
    + right. split; [reflexivity|]. intros C. apply I0 in C. discriminate.
  - intros x y HZ HP. pose proof (l_on_curve_or_inf lb m Hp Hlb Hlb2 Hm1 ch n k HN HK HE1 HE2 (pcells P) TT True b P (ppre1 _) KP ltac:(auto) ltac:(intros _ _; exists x, y; auto using hat_pred)) as H. cmp H.
    + eauto using hat_good.
    + intros o (_ & G & _). now inversion G.
    + intros rho o _ _ G. now inversion G.
Qed.
Theorem C55_assign_point : forall x y : F m,
  sound lb (ecc_assign_point lb m ch b x y) shape (fun sg P => exists u v, at_pt (avs sg) P u v /\ (onc2 u v \/ u = F0 /\ v = F0)) /\
  (zcap (p:=p) n k -> (onc2 x y \/ x = F0 /\ y = F0) -> comp lb T (ecc_assign_point lb m ch b x y) (fun P => hat_pt P x y) okp) /\
  sound lb (ecc_assign_constant_point m ch x y) shape (fun sg P => at_pt (avs sg) P x y) /\
  comp lb T (ecc_assign_constant_point m ch x y) (fun P => hat_pt P x y) okp.
Proof.
  intros x y. split; [|split; [|split]].
  - pose proof (l_assign_point lb m Hp Hlb Hlb2 Hm1 ch n k HN HK HE1 HE2 [] TT False b x y ltac:(tauto) ltac:(tauto)) as H. snd H.
    intros sg P _ (u & v & C & A & _). exists u, v. split; auto. apply (pred_at False). apply A. tauto.
  - intros HZ HC. pose proof (l_assign_point lb m Hp Hlb Hlb2 Hm1 ch n k HN HK HE1 HE2 [] TT True b x y ltac:(auto) ltac:(intros _; exact HC)) as H. cmp H.
    intros P (K & G & u & v & C & A & E). destruct (E eq_refl) as [-> ->]. apply pred_hat; auto.
  - pose proof (l_constant_point lb m Hp Hlb Hlb2 Hm1 ch n k HN HK [] TT False x y) as H. snd H.
    intros sg P _ A. apply (pred_at False). apply A. tauto.
  - pose proof (l_constant_point lb m Hp Hlb Hlb2 Hm1 ch n k HN HK [] TT True x y) as H. cmp H.
    intros P (K & G & A). apply pred_hat; auto.
Qed.

(** ** C56: selection, comparison, negation *)
Theorem C56_select : forall (P Q : ecpt) (sel : AV p), shape P -> shape Q ->
  sound lb (ec_select P Q sel) shape
    (fun sg R => forall x1 y1 x2 y2, at_pt (avs sg) P x1 y1 -> at_pt (avs sg) Q x2 y2 ->
       (avs sg sel = F1 -> at_pt (avs sg) R x1 y1) /\ (avs sg sel = F0 -> at_pt (avs sg) R x2 y2)) /\
  (forall x1 y1 x2 y2 (s : bool), hat_pt P x1 y1 -> hat_pt Q x2 y2 -> hv sel (fbool s) ->
     comp lb (oks (sel :: pcells P ++ pcells Q)) (ec_select P Q sel) (fun R => if s then hat_pt R x1 y1 else hat_pt R x2 y2) okp).
Proof.
  intros P Q sel KP KQ.
  assert (CP : ppre (sel :: pcells P ++ pcells Q) P) by (apply incl_tl, ppre2l).
  assert (CQ : ppre (sel :: pcells P ++ pcells Q) Q) by (apply incl_tl, ppre2r).
  pose proof (fun Hon => l_select lb m Hp n k (sel :: pcells P ++ pcells Q) TT Hon P Q sel CP CQ ltac:(now left) KP KQ) as H. split.
  - snd (H False). intros sg R _ HR x1 y1 x2 y2 A B. split; intros E; apply (pred_at False).
    + apply (HR False x1 y1 x2 y2 true); auto using at_pred.
    + apply (HR False x1 y1 x2 y2 false); auto using at_pred.
  - intros x1 y1 x2 y2 s HP HQ Hs. cmp (H True).
    + constructor; [eauto using hv_good|apply Forall_app; split; eauto using hat_good].
    + intros R (KR & GR & HR). specialize (HR True x1 y1 x2 y2 s (hv_hval _ _ Hs) (hat_pred _ _ _ HP) (hat_pred _ _ _ HQ)). destruct s; apply pred_hat; auto.
Qed.
(** selection from a table of [2^l] points by [l] little-endian bits *)
Theorem C56_select_from_bits_sound : forall (Ps : list ecpt) (sel : list (AV p)), Forall shape Ps ->
  sound lb (ec_select_from_bits ch Ps sel) shape
    (fun sg R => forall (bs : list bool) Pj x y, map (avs sg) sel = map fbool bs -> nth_error Ps (Z.to_nat (undigits 1 (map Z.b2z bs))) = Some Pj ->
       at_pt (avs sg) Pj x y -> at_pt (avs sg) R x y).
Proof.
  intros Ps sel KPs.
  assert (Hcp : Forall (ppre (concat (map (fun P : ecpt => pcells P) Ps) ++ sel)) Ps).
  { apply Forall_forall. intros P HP x Hx. apply in_or_app. left. apply in_concat. exists (pcells P). split; [now apply (in_map (fun P : ecpt => pcells P))|auto]. }
  pose proof (l_select_from_bits lb m Hp Hlb Hlb2 Hm1 ch n k HN HE1 HE2 (concat (map (fun P : ecpt => pcells P) Ps) ++ sel) TT False Ps sel Hcp ltac:(apply incl_appr, incl_refl) KPs ltac:(tauto) ltac:(tauto)) as H. snd H.
  intros sg R _ HR bs Pj x y E EN A. apply (pred_at False). eapply HR; [exact E|exact EN|]. now apply at_pred.
Qed.
Theorem C56_select_from_bits_complete : forall (Ps : list ecpt) (sel : list (AV p)) (bs : list bool) Pj x y, Forall shape Ps -> Forall (fun P => Forall good (pcells P)) Ps ->
  sel <> [] -> length Ps = (2 ^ length sel)%nat -> Forall2 hv sel (map fbool bs) ->
  nth_error Ps (Z.to_nat (undigits 1 (map Z.b2z bs))) = Some Pj -> hat_pt Pj x y ->
  comp lb (oks (concat (map (fun P : ecpt => pcells P) Ps) ++ sel)) (ec_select_from_bits ch Ps sel) (fun R => hat_pt R x y) okp.
Proof.
  intros Ps sel bs Pj x y KPs GPs Hne HL Hbs EN HP.
  assert (Hcp : Forall (ppre (concat (map (fun P : ecpt => pcells P) Ps) ++ sel)) Ps).
  { apply Forall_forall. intros P HP' x' Hx. apply in_or_app. left. apply in_concat. exists (pcells P). split; [now apply (in_map (fun P : ecpt => pcells P))|auto]. }
  assert (RB : Rbits hval sel bs) by (unfold Rbits; now apply hv_hval_l).
  pose proof (l_select_from_bits lb m Hp Hlb Hlb2 Hm1 ch n k HN HE1 HE2 (concat (map (fun P : ecpt => pcells P) Ps) ++ sel) TT True Ps sel Hcp ltac:(apply incl_appr, incl_refl) KPs ltac:(auto) ltac:(eauto)) as H. cmp H.
  - apply Forall_app. split; [|eauto using hv_good_l]. apply Forall_concat, Forall_map. exact GPs.
  - intros R (KR & GR & HR). apply pred_hat; auto. eapply HR; [exact RB|exact EN|]. now apply hat_pred.
Qed.
Theorem C56_is_equal : forall P Q : ecpt, shape P -> shape Q ->
  sound lb (ecc_is_equal lb ch P Q) T
    (fun sg o => forall x1 y1 x2 y2, at_pt (avs sg) P x1 y1 -> at_pt (avs sg) Q x2 y2 -> avs sg o = if Feqb x1 x2 && Feqb y1 y2 then F1 else F0) /\
  sound lb (ecc_assert_equal lb ch P Q) T
    (fun sg o => forall x1 y1 x2 y2, at_pt (avs sg) P x1 y1 -> at_pt (avs sg) Q x2 y2 -> x1 = x2 /\ y1 = y2) /\
  (forall x1 y1 x2 y2, hat_pt P x1 y1 -> hat_pt Q x2 y2 ->
     comp lb (oks (pcells P ++ pcells Q)) (ecc_is_equal lb ch P Q) (fun o => good o /\ hval o = if Feqb x1 x2 && Feqb y1 y2 then F1 else F0) (fun rho o => av_ok rho o) /\
     (x1 = x2 -> y1 = y2 -> comp lb (oks (pcells P ++ pcells Q)) (ecc_assert_equal lb ch P Q) T U)).
Proof.
  intros P Q KP KQ. split; [|split].
  - pose proof (l_is_equal lb m Hp Hlb Hlb2 Hm1 ch n k HN HK (pcells P ++ pcells Q) TT False P Q (ppre2l _ _) (ppre2r _ _) KP KQ ltac:(tauto)) as H. snd H.
    intros sg o _ R x1 y1 x2 y2 A B. rewrite (R False x1 y1 x2 y2) by auto using at_pred. now destruct (_ && _).
  - pose proof (l_assert_equal lb m Hp Hlb Hlb2 Hm1 ch n k HN HK (pcells P ++ pcells Q) TT False P Q (ppre2l _ _) (ppre2r _ _) KP KQ ltac:(tauto)) as H. snd H.
    intros sg o _ R x1 y1 x2 y2 A B. apply (R False); auto using at_pred.
  - intros x1 y1 x2 y2 HP HQ. split.
    + pose proof (l_is_equal lb m Hp Hlb Hlb2 Hm1 ch n k HN HK (pcells P ++ pcells Q) TT True P Q (ppre2l _ _) (ppre2r _ _) KP KQ
        ltac:(intros _ _; exists x1, y1, x2, y2; auto using hat_pred)) as H. cmp H.
      * apply Forall_app; split; eauto using hat_good.
      * intros o (_ & G & R). split; [now inversion G|]. rewrite (R True x1 y1 x2 y2) by auto using hat_pred. now destruct (_ && _).
      * intros rho o _ _ G. now inversion G.
    + intros <- <-. pose proof (l_assert_equal lb m Hp Hlb Hlb2 Hm1 ch n k HN HK (pcells P ++ pcells Q) TT True P Q (ppre2l _ _) (ppre2r _ _) KP KQ
        ltac:(intros _ _; exists x1, y1; auto using hat_pred)) as H. cmp H.
      apply Forall_app; split; eauto using hat_good.
Qed.
Theorem C56_negate : forall P : ecpt, shape P ->
  sound lb (ecc_negate lb ch P) shape (fun sg R => forall x y, at_pt (avs sg) P x y -> at_pt (avs sg) R x (- y)%F) /\
  (forall x y, zcap (p:=p) n k -> hat_pt P x y -> comp lb (oks (pcells P)) (ecc_negate lb ch P) (fun R => hat_pt R x (- y)%F) okp).
Proof.
  intros P KP. split.
  - pose proof (l_negate lb m Hp Hlb Hlb2 Hm1 ch n k HN HK (pcells P) TT False P (ppre1 _) KP ltac:(tauto) ltac:(tauto)) as H. snd H.
    intros sg R _ HR x y A. apply (pred_at False). apply HR. now apply at_pred.
  - intros x y HZ HP. pose proof (l_negate lb m Hp Hlb Hlb2 Hm1 ch n k HN HK (pcells P) TT True P (ppre1 _) KP ltac:(auto) ltac:(intros _ _; exists x, y; auto using hat_pred)) as H. cmp H.
    + eauto using hat_good.
    + intros R (KR & GR & HR). apply pred_hat; auto. apply HR. now apply hat_pred.
Qed.
(** strict subtraction of curve points [P <> -Q]: the group difference, with (0, 0) for infinity *)
Theorem C56_sub_strict_sound : forall (rand_x rand_y : F m) (P Q : ecpt), shape P -> shape Q ->
  sound lb (ec_sub_strict lb m ch rand_x rand_y P Q) shape
    (fun sg R => forall x1 y1 x2 y2, at_pt (avs sg) P x1 y1 -> at_pt (avs sg) Q x2 y2 -> onc2 x1 y1 -> onc2 x2 y2 ->
       match eadd (Some (x1, y1)) (eneg (Some (x2, y2))) with
       | None => at_pt (avs sg) R F0 F0
       | Some (x3, y3) => x1 <> x2 /\ at_pt (avs sg) R x3 y3
       end).
Proof.
  intros rx ry P Q KP KQ. pose proof (l_sub_strict lb m Hp Hlb Hlb2 Hm1 ch n k HN HK HE1 HE2 Hm (pcells P ++ pcells Q) TT False rx ry P Q (ppre2l _ _) (ppre2r _ _) KP KQ ltac:(tauto)) as H. snd H.
  intros sg R _ HR x1 y1 x2 y2 A B C1 C2. destruct (HR False x1 y1 x2 y2 (at_pred _ _ _ _ A) (at_pred _ _ _ _ B) ltac:(tauto)) as [S1 S2]. cbn [EcGroup.eneg].
  destruct (F_dec m x1 x2) as [->|D].
  - destruct (S1 eq_refl) as [-> S3]. unfold EcGroup.eadd. rewrite (proj2 (Feqb_eq _ x2 x2) eq_refl).
    replace (- - y2)%F with y2 by ring. rewrite (proj2 (Feqb_eq _ y2 y2) eq_refl). eapply pred_at; exact S3.
  - destruct (S2 D) as (s & E & S3). rewrite (add_of_slope m Hm x1 y1 x2 (- y2)%F s D E). destruct (line3 _ _ _ _ _). split; auto. eapply pred_at; exact S3.
Qed.
Theorem C56_sub_strict_complete : forall (rand_x rand_y : F m) (P Q : ecpt) x1 y1 x2 y2, shape P -> shape Q ->
  hat_pt P x1 y1 -> hat_pt Q x2 y2 -> (x1 = x2 -> y1 = y2 /\ rand_x <> x2) ->
  comp lb (oks (pcells P ++ pcells Q)) (ec_sub_strict lb m ch rand_x rand_y P Q)
    (fun R => match eadd (Some (x1, y1)) (eneg (Some (x2, y2))) with None => hat_pt R F0 F0 | Some (x3, y3) => hat_pt R x3 y3 end) okp.
Proof.
  intros rx ry P Q x1 y1 x2 y2 KP KQ HP HQ HC.
  pose proof (l_sub_strict lb m Hp Hlb Hlb2 Hm1 ch n k HN HK HE1 HE2 Hm (pcells P ++ pcells Q) TT True rx ry P Q (ppre2l _ _) (ppre2r _ _) KP KQ
     ltac:(intros _ _; exists x1, y1, x2, y2; auto using hat_pred)) as H. cmp H.
  - apply Forall_app; split; eauto using hat_good.
  - intros R (KR & GR & HR). destruct (HR True x1 y1 x2 y2 (hat_pred _ _ _ HP) (hat_pred _ _ _ HQ) ltac:(intros _ E; now apply HC)) as [S1 S2]. cbn [EcGroup.eneg].
    destruct (F_dec m x1 x2) as [->|D].
    + destruct (S1 eq_refl) as [-> S3]. unfold EcGroup.eadd. rewrite (proj2 (Feqb_eq _ x2 x2) eq_refl).
      replace (- - y2)%F with y2 by ring. rewrite (proj2 (Feqb_eq _ y2 y2) eq_refl). now apply pred_hat.
    + destruct (S2 D) as (s & E & S3). rewrite (add_of_slope m Hm x1 y1 x2 (- y2)%F s D E). destruct (line3 _ _ _ _ _). now apply pred_hat.
Qed.
End Ecc.

(** ** The hypotheses are met by BN254's G1 ([y^2 = x^3 + 3] over [q]) in a circuit over [r], [n = 88], [k = 3], [lookup_bits = 17].
    From the generator (1, 2) the honest prover loads G, computes [2G], compares [2G] with [G], and computes [G - G], which is (0, 0). *)
Section Instance.
Local Open Scope monad_scope.
Notation lb := 17%nat.
Notation n := 88%nat.
Notation k := 3%nat.
Notation q := bn_q.
Definition bn_b : F bn_q := of_Z bn_q 3.
Lemma bn_he1 : (Nat.max (log2_ceil (Z.of_nat k) + 2 * n + 5) (2 * n + bit_length (Z.of_nat k)) + lb + 2 <= CAPACITY bn_r)%nat.
Proof. rewrite bn_cap. apply Nat.leb_le. vm_compute. reflexivity. Qed.
Lemma bn_he2 : 64 * (2 ^ Z.of_nat (bits (Z.pos bn_q)) * 2 ^ Z.of_nat (bits (Z.pos bn_q))) < 2 ^ Z.of_nat (n * k + NUM_BITS bn_r).
Proof. rewrite bn_bits, bn_nb. vm_compute. reflexivity. Qed.
Lemma bn_b_nz : bn_b <> F0.
Proof. apply of_Z_nz. vm_compute. split; reflexivity. Qed.
Definition bn_lt3 : 3 < Z.pos bn_q. Proof. vm_compute. reflexivity. Qed.
Definition bn_2lb : (2 * lb <= CAPACITY bn_r)%nat. Proof. rewrite bn_cap. lia. Qed.
Definition bn_lb : (1 <= lb < 64)%nat. Proof. lia. Qed.
Lemma bn_gen_on_curve : onc2 q bn_b (of_Z q 1) (of_Z q 2). Proof. vm_compute. reflexivity. Qed.
Example C54_C56_example : forall ch rx ry, fpchip_new (p:=bn_r) bn_q n k = Some ch -> rx <> of_Z q 1 ->
  comp lb (fun _ => True)
    (G <- ecc_load_private lb q ch bn_b (of_Z q 1) (of_Z q 2) ;;
     D <- ec_double lb q ch G ;;
     o <- ecc_is_equal lb ch D G ;;
     Zr <- ec_sub_strict lb q ch rx ry G G ;; ret (D, o, Zr))
    (fun r => let '(D, o, Zr) := r in
       (exists x y, hat_pt q n k D x y /\ eadd q (Some (of_Z q 1, of_Z q 2)) (Some (of_Z q 1, of_Z q 2)) = Some (x, y)) /\ good o /\ hat_pt q n k Zr F0 F0) (fun _ _ => True).
Proof.
  intros ch rx ry HN Hrx. pose proof bn_fp_params as HK. pose proof bn254_r_prime as Hp. pose proof bn254_q_prime as Hq.
  eapply comp_bind; [apply (proj1 (proj2 (proj2 (C55_load_private bn_r q lb Hp bn_lb bn_2lb bn_lt3 n k ch HN HK bn_he1 bn_he2 bn_b (of_Z q 1) (of_Z q 2))) bn_gen_on_curve))|cbv beta; auto|].
  cbv beta. intros G HG. assert (KG : shape n k G) by (split; [exact (proj1 (proj2 (proj1 HG)))|exact (proj1 (proj2 (proj2 HG)))]).
  eapply comp_bind; [apply (C54_double_complete bn_r q lb Hp bn_lb bn_2lb Hq bn_lt3 n k ch HN HK bn_he1 bn_he2 G _ _ KG HG)| |].
  { apply of_Z_nz. vm_compute. split; reflexivity. }
  { cbv beta. intros rho [_ A]. exact A. }
  cbv beta. intros D (x3 & y3 & HD & ED). assert (KD : shape n k D) by (split; [exact (proj1 (proj2 (proj1 HD)))|exact (proj1 (proj2 (proj2 HD)))]).
  eapply comp_bind; [apply (proj1 (proj2 (proj2 (C56_is_equal bn_r q lb Hp bn_lb bn_2lb bn_lt3 n k ch HN HK bn_he1 bn_he2 D G KD KG)) _ _ _ _ HD HG))| |].
  { cbv beta. intros rho [[_ A] B]. apply Forall_app; split; assumption. }
  cbv beta. intros o [Go _].
  eapply comp_bind; [apply (C56_sub_strict_complete bn_r q lb Hp bn_lb bn_2lb Hq bn_lt3 n k ch HN HK bn_he1 bn_he2 rx ry G G _ _ _ _ KG KG HG HG)| |].
  { intros _. split; [reflexivity|exact Hrx]. }
  { cbv beta. intros rho [[[_ A] B] _]. apply Forall_app; split; assumption. }
  cbv beta. intros Zr HZ. 
  assert (E : eadd q (Some (of_Z q 1, of_Z q 2)) (eneg q (Some (of_Z q 1, of_Z q 2))) = None) by (apply (eadd_neg_r q Hq)).
  rewrite E in HZ. apply comp_ret; auto. split; [eauto|]. split; [exact Go|exact HZ].
Qed.
End Instance.
