(** Model of halo2-ecc/src/fields/native_fp.rs: [NativeFieldChip], the [FieldChip] whose field is the circuit's own field.
    All three point types are [AssignedValue<F>] (native_fp.rs:27-29), so the conversions between them are the identity. *)
From Coq Require Import ZArith Znumtheory Lia List Bool Ring.
From Verif Require Import Field Spec Context ContextProofs Utils Logic Gate GateProofs ChainProofs IPProofs BitProofs PowProofs IPComp Derived Calc CalcH
  Range RangeProofs RangeProofs2 RangeProofs3 BigInt KecComp KecCompProofs.
Import ListNotations.
Local Open Scope Z_scope.
Local Open Scope monad_scope.

Section NativeFp.
Context {p : positive} (lb : nat).
Notation Fp := (F p).
Notation M := (M p).
Notation AV := (AV p).
Notation ex := Existing.

(** native_fp.rs:43-45 [get_assigned_value]: [*x.value()] *)
Definition nf_value (x : AV) : option Fp := av_value x.
(** native_fp.rs:47-49 [load_private] *)
Definition nf_load_private (a : Fp) : M AV := load_witness a.
(** native_fp.rs:51-53 [load_constant] *)
Definition nf_load_constant (a : Fp) : M AV := load_constant a.
(** native_fp.rs:56-63 [add_no_carry] *)
Definition nf_add_no_carry (a b : AV) : M AV := add (ex a) (ex b).
(** native_fp.rs:65-72 [add_constant_no_carry] *)
Definition nf_add_constant_no_carry (a : AV) (c : Fp) : M AV := add (ex a) (Constant c).
(** native_fp.rs:74-81 [sub_no_carry] *)
Definition nf_sub_no_carry (a b : AV) : M AV := sub (ex a) (ex b).
(** native_fp.rs:85-87 [negate] *)
Definition nf_negate (a : AV) : M AV := neg (ex a).
(** native_fp.rs:89-104 [scalar_mul_no_carry]; the scalar conversion (lines 95-101) is [i64_scalar] of BigInt.v *)
Definition nf_scalar_mul_no_carry (a : AV) (c : Z) : M AV := cf <- lift (i64_scalar (p:=p) c) ;; mul (ex a) (Constant (fst cf)).
(** native_fp.rs:106-122 [scalar_mul_and_add_no_carry] *)
Definition nf_scalar_mul_and_add_no_carry (a b : AV) (c : Z) : M AV := cf <- lift (i64_scalar (p:=p) c) ;; mul_add (ex a) (Constant (fst cf)) (ex b).
(** native_fp.rs:124-131 [mul_no_carry] *)
Definition nf_mul_no_carry (a b : AV) : M AV := mul (ex a) (ex b).
(** native_fp.rs:133-135 [check_carry_mod_to_zero] *)
Definition nf_check_carry_mod_to_zero (a : AV) : M unit := assert_is_const a F0.
(** native_fp.rs:138-140 [carry_mod] *)
Definition nf_carry_mod (a : AV) : M AV := ret a.
(** native_fp.rs:142-153 [range_check] *)
Definition nf_range_check (a : AV) (max_bits : nat) : M unit := if Nat.ltb max_bits (NUM_BITS p) then range_check lb a max_bits else ret tt.
(** native_fp.rs:155-157 [enforce_less_than] *)
Definition nf_enforce_less_than (a : AV) : M AV := ret a.
(** native_fp.rs:160-167 [is_soft_zero] *)
Definition nf_is_soft_zero (a : AV) : M AV := is_zero a.
(** native_fp.rs:169-177 [is_soft_nonzero]: [gate.neg], not [gate.not] *)
Definition nf_is_soft_nonzero (a : AV) : M AV := z <- nf_is_soft_zero a ;; neg (ex z).
(** native_fp.rs:179-181 [is_zero] *)
Definition nf_is_zero (a : AV) : M AV := nf_is_soft_zero a.
(** native_fp.rs:183-190 [is_equal_unenforced] *)
Definition nf_is_equal_unenforced (a b : AV) : M AV := is_equal (ex a) (ex b).
(** native_fp.rs:192-199 [assert_equal] *)
Definition nf_assert_equal (a b : AV) : M unit := constrain_equal a b.
(** native_fp.rs:203-212 [select] *)
Definition nf_select (a b sel : AV) : M AV := select (ex a) (ex b) (ex sel).
(** native_fp.rs:214-223 [select_by_indicator] *)
Definition nf_select_by_indicator (a coeffs : list AV) : M AV := select_by_indicator (map Existing a) coeffs.
(** The default methods of [FieldChip] at this chip: fields/mod.rs:65-72, 176-186, 189-197 *)
Definition nf_load_private_reduced (a : Fp) : M AV := c <- nf_load_private a ;; nf_enforce_less_than c.
Definition nf_is_equal (a b : AV) : M AV := a <- nf_enforce_less_than a ;; b <- nf_enforce_less_than b ;; nf_is_equal_unenforced a b.
Definition nf_mul (a b : AV) : M AV := c <- nf_mul_no_carry a b ;; nf_carry_mod c.
(** fields/mod.rs:218-239 [divide_unsafe], 257-278 [neg_divide_unsafe] *)
Definition nf_divide_unsafe (a b : AV) : M AV :=
  av <- lift (nf_value a) ;; bv <- lift (nf_value b) ;;
  q <- nf_load_private (av * (if Fis0 bv then F0 else Finv bv))%F ;;
  qb <- nf_mul_no_carry q b ;; c <- nf_sub_no_carry qb a ;; nf_check_carry_mod_to_zero c ;;; ret q.
Definition nf_neg_divide_unsafe (a b : AV) : M AV :=
  av <- lift (nf_value a) ;; bv <- lift (nf_value b) ;;
  q <- nf_load_private (- av * (if Fis0 bv then F0 else Finv bv))%F ;;
  qb <- nf_mul_no_carry q b ;; c <- nf_add_no_carry qb a ;; nf_check_carry_mod_to_zero c ;;; ret q.
(** fields/mod.rs:200-211 [divide], 242-253 [neg_divide] *)
Definition nf_divide (a b : AV) : M AV := z <- nf_is_zero b ;; assert_is_const z F0 ;;; nf_divide_unsafe a b.
Definition nf_neg_divide (a b : AV) : M AV := z <- nf_is_zero b ;; assert_is_const z F0 ;;; nf_neg_divide_unsafe a b.

(** * Proofs *)
Notation env := (env (p:=p)).
Notation hcalc := (hcalc lb).
Hypothesis Hp : prime (Z.pos p).
Hypothesis Hlb : (1 <= lb < 64)%nat.
Hypothesis Hlb2 : (2 * lb <= CAPACITY p)%nat.
Add Ring Fring : (F_ring p) (morphism (F_morph p), constants [Fcst]).
Lemma i64_scalar_ok c : - 2 ^ 63 < c < 2 ^ 63 -> exists z, i64_scalar (p:=p) c = Some (of_Z p c, z).
Proof.
  intros H. unfold i64_scalar. destruct (Z.leb_spec (- 2 ^ 63) c); [|lia]. destruct (Z.ltb_spec c (2 ^ 63)); [|lia]. cbn [andb]. destruct (Z.leb_spec 0 c); [eauto|].
  destruct (Z.eqb_spec c (- 2 ^ 63)); [lia|]. eexists. do 2 f_equal. rewrite <- of_Z_opp. f_equal. lia.
Qed.
Lemma i64_scalar_none c : c = - 2 ^ 63 -> i64_scalar (p:=p) c = None.
Proof. intros ->. reflexivity. Qed.

Ltac prim S C :=
  eapply calc_prim;
  [ eapply sound_weaken; [apply S; eauto using qin_pin|auto|]; cbv beta; intros; rewrite <- ?qval_qe; eauto
  | intros HG; apply C; eauto using qin_qh
  | intros rho HF; unfold qok2, qok3; repeat split; eauto using qin_ok ].
Lemma calc_neg L (Pre : env -> Prop) a : qin L a -> calc lb L Pre (neg a) (fun _ => True) (fun e o => e o = (- qe e a)%F) one.
Proof. intros. prim (@neg_pin p lb) (@neg_comp p lb). Qed.
Lemma h_load_witness L (Pre : env -> Prop) (Hon : Prop) w : hcalc L Pre Hon (load_witness w) (fun o => hval o = w) (fun _ _ => True) one.
Proof.
  split.
  - intros s o s' W E. pose proof E as E'. apply load_witness_spec in E as (W1 & X1 & A1 & I1 & C1 & V1 & S1); auto. split; auto. split; auto. split; auto.
    unfold hval. now rewrite V1.
  - intros _ _ _. eapply comp_weaken; [apply (comp_load_witness lb w (fun _ => True))| | |]; cbv beta; auto.
    + intros o Ho. split; [now apply hv_hval|]. split; [constructor; eauto using hv_good|auto].
    + intros rho o _ _ Ho. constructor; auto.
Qed.
Ltac hc := apply calc_h.
Section Ops.
Variables (L : list AV) (Pre : env -> Prop) (Hon : Prop).
Lemma n_add a b : In a L -> In b L -> hcalc L Pre Hon (nf_add_no_carry a b) (fun _ => True) (fun e o => e o = (e a + e b)%F) one.
Proof. intros. hc. now apply (calc_add lb L Pre (ex a) (ex b)). Qed.
Lemma n_addc a c : In a L -> hcalc L Pre Hon (nf_add_constant_no_carry a c) (fun _ => True) (fun e o => e o = (e a + c)%F) one.
Proof. intros. hc. now apply (calc_add lb L Pre (ex a) (Constant c)). Qed.
Lemma n_sub a b : In a L -> In b L -> hcalc L Pre Hon (nf_sub_no_carry a b) (fun _ => True) (fun e o => e o = (e a - e b)%F) one.
Proof. intros. hc. now apply (calc_sub lb L Pre (ex a) (ex b)). Qed.
Lemma n_negate a : In a L -> hcalc L Pre Hon (nf_negate a) (fun _ => True) (fun e o => e o = (- e a)%F) one.
Proof. intros. hc. now apply (calc_neg L Pre (ex a)). Qed.
Lemma n_mul_nc a b : In a L -> In b L -> hcalc L Pre Hon (nf_mul_no_carry a b) (fun _ => True) (fun e o => e o = (e a * e b)%F) one.
Proof. intros. hc. now apply (calc_mul lb L Pre (ex a) (ex b)). Qed.
Lemma n_smul a c : In a L -> - 2 ^ 63 < c < 2 ^ 63 -> hcalc L Pre Hon (nf_scalar_mul_no_carry a c) (fun _ => True) (fun e o => e o = (e a * of_Z p c)%F) one.
Proof.
  intros Ia Hc. unfold nf_scalar_mul_no_carry. destruct (i64_scalar_ok c Hc) as (z & ->). eapply h_lift_bind; [eauto|]. intros ? E. injection E as <-.
  cbn [fst]. hc. apply (calc_mul lb L Pre (ex a) (Constant _)); cbn; auto.
Qed.
Lemma n_smul_add a b c : In a L -> In b L -> - 2 ^ 63 < c < 2 ^ 63 -> hcalc L Pre Hon (nf_scalar_mul_and_add_no_carry a b c) (fun _ => True) (fun e o => e o = (e a * of_Z p c + e b)%F) one.
Proof.
  intros Ia Ib Hc. unfold nf_scalar_mul_and_add_no_carry. destruct (i64_scalar_ok c Hc) as (z & ->). eapply h_lift_bind; [eauto|]. intros ? E. injection E as <-.
  cbn [fst]. hc. apply (calc_mul_add lb L Pre (ex a) (Constant _) (ex b)); cbn; auto.
Qed.
Lemma n_is_zero a : In a L -> hcalc L Pre Hon (nf_is_zero a) (fun _ => True) (fun e o => e o = fbool (Fis0 (e a))) one.
Proof. apply (h_is_zero lb Hp). Qed.
Lemma n_is_soft_zero a : In a L -> hcalc L Pre Hon (nf_is_soft_zero a) (fun _ => True) (fun e o => e o = fbool (Fis0 (e a))) one.
Proof. apply (h_is_zero lb Hp). Qed.
Lemma n_is_equal_unenforced a b : In a L -> In b L -> hcalc L Pre Hon (nf_is_equal_unenforced a b) (fun _ => True) (fun e o => e o = fbool (Feqb (e a) (e b))) one.
Proof. intros. hc. now apply (calc_is_equal lb Hp L Pre (ex a) (ex b)). Qed.
Lemma n_select a b s : In a L -> In b L -> In s L -> hcalc L Pre Hon (nf_select a b s) (fun _ => True) (fun e o => e o = ((e a - e b) * e s + e b)%F) one.
Proof. intros. hc. now apply (calc_select lb L Pre (ex a) (ex b) (ex s)). Qed.
End Ops.
Lemma n_nonzero L (Pre : env -> Prop) (Hon : Prop) a : In a L -> hcalc L Pre Hon (nf_is_soft_nonzero a) (fun _ => True) (fun e o => e o = if Fis0 (e a) then (- F1)%F else F0) one.
Proof.
  intros Ia. unfold nf_is_soft_nonzero. eapply h_bind; [apply n_is_soft_zero; auto|]. cbv beta. intros z _.
  eapply h_post; [apply (n_negate (one z ++ L) _ Hon z); now left|auto| |]; cbv beta.
  - intros e o _ [_ E] ->. rewrite E. destruct (Fis0 (e a)); cbn [fbool]; [reflexivity|ring].
  - intros o _. apply incl_appl, incl_refl.
Qed.
Lemma n_divide_unsafe (sg : bool) L (Pre : env -> Prop) (Hon : Prop) a b : In a L -> In b L -> (Hon -> Pre hval -> hval b <> F0) ->
  let u (e : env) := if sg then e a else (- e a)%F in
  hcalc L Pre Hon (if sg then nf_divide_unsafe a b else nf_neg_divide_unsafe a b) (fun _ => True) (fun e o => (e o * e b)%F = u e) one.
Proof.
  intros Ia Ib HH u. 
  assert (G : hcalc L Pre Hon (av <- lift (nf_value a) ;; bv <- lift (nf_value b) ;;
    q <- nf_load_private ((if sg then av else - av) * (if Fis0 bv then F0 else Finv bv))%F ;;
    qb <- nf_mul_no_carry q b ;; c <- (if sg then nf_sub_no_carry qb a else nf_add_no_carry qb a) ;; nf_check_carry_mod_to_zero c ;;; ret q)
      (fun _ => True) (fun e o => (e o * e b)%F = u e) one).
  { assert (VAL : forall x, In x L -> Forall good L -> nf_value x = Some (hval x)).
    { intros x Hx HG. rewrite Forall_forall in HG. destruct (HG x Hx) as [V _]. unfold nf_value, av_value. now rewrite V. }
    assert (VAL' : forall x v, nf_value x = Some v -> v = hval x). { intros x v. unfold nf_value, av_value, hval. destruct (av_val x) as [|y|]; intros [= <-]; auto. }
    eapply h_lift_bind; [intros; eexists; now apply VAL|]. intros av Ea. apply VAL' in Ea as ->.
    eapply h_lift_bind; [intros; eexists; now apply VAL|]. intros bv Eb. apply VAL' in Eb as ->.
    eapply h_bind; [apply h_load_witness|]. cbv beta. intros q Hq.
    eapply h_bind; [apply (n_mul_nc _ _ Hon q b); cbn; auto|]. cbv beta. intros qb _.
    eapply h_bind with (P1 := fun _ => True) (R1 := fun e c => e c = (if sg then e qb - e a else e qb + e a)%F) (c1 := one).
    { destruct sg; [apply (n_sub _ _ Hon qb a); cbn; auto|apply (n_add _ _ Hon qb a); cbn; auto]. }
    intros c _. eapply h_bind; [apply (h_assert_is_const lb _ _ Hon c F0); [now left|]|].
    { cbv beta. intros Hh [[[HP _] E1] E2]. rewrite E2, E1, Hq. specialize (HH Hh HP).
      assert (Fis0 (hval b) = false) as ->. { destruct (Fis0 (hval b)) eqn:Z0; auto. apply Fis0_true in Z0. contradiction. }
      pose proof (Finv_l _ _ Hp HH) as I0. destruct sg.
      - transitivity (hval a * (Finv (hval b) * hval b) - hval a)%F; [ring|rewrite I0; ring].
      - transitivity (- hval a * (Finv (hval b) * hval b) + hval a)%F; [ring|rewrite I0; ring]. }
    cbv beta. intros [] _. apply h_ret; auto.
    - intros x [<-|[]]. cbn. auto.
    - intros e [[[[HP _] E1] E2] E3]. unfold u. rewrite <- E1. rewrite E2 in E3. destruct sg.
      + transitivity ((e qb - e a) + e a)%F; [ring|rewrite E3; ring].
      + transitivity ((e qb + e a) - e a)%F; [ring|rewrite E3; ring]. }
  destruct sg; exact G.
Qed.
Lemma n_divide (sg : bool) L (Pre : env -> Prop) (Hon : Prop) a b : In a L -> In b L -> (Hon -> Pre hval -> hval b <> F0) ->
  hcalc L Pre Hon (if sg then nf_divide a b else nf_neg_divide a b) (fun _ => True) (fun e o => e b <> F0 /\ (e o * e b)%F = if sg then e a else (- e a)%F) one.
Proof.
  intros Ia Ib HH.
  assert (G : hcalc L Pre Hon (z <- nf_is_zero b ;; assert_is_const z F0 ;;; (if sg then nf_divide_unsafe a b else nf_neg_divide_unsafe a b)) (fun _ => True) (fun e o => e b <> F0 /\ (e o * e b)%F = if sg then e a else (- e a)%F) one).
  { eapply h_bind; [apply n_is_zero; auto|]. cbv beta. intros z _.
    eapply h_bind; [apply (h_assert_is_const lb _ _ Hon z); [now left|]|]; cbv beta.
    { intros Hh [HP ->]. specialize (HH Hh HP). destruct (Fis0 (hval b)) eqn:Z0; auto. apply Fis0_true in Z0. contradiction. }
    intros [] _. eapply h_post; [apply (n_divide_unsafe sg _ _ Hon a b); cbn; auto| | |]; cbv beta; auto.
    - intros Hh [[HP _] _]. auto.
    - intros e o _ [[HP E1] E2] E. split; auto. rewrite E2 in E1. destruct (Fis0 (e b)) eqn:Z0; [symmetry in E1; now apply (F1_neq_0 p Hp) in E1|]. intros E0. rewrite E0, (proj2 (Fis0_true _ _) eq_refl) in Z0. discriminate.
    - intros o _. apply incl_appl, incl_refl. }
  destruct sg; exact G.
Qed.
End NativeFp.
