(** Property theorems C75: [NativeFieldChip] (halo2-ecc/src/fields/native_fp.rs), the field chip whose field is the circuit's own.
    Reading guide: [sound]/[comp] as in PropsGate.v; [hv a x]: the honest prover assigned [x] to the cell [a]. *)
From Coq Require Import ZArith Znumtheory Lia List Bool Ring.
From Verif Require Import Field Spec Context ContextProofs Utils Logic Gate GateProofs ChainProofs IPProofs BitProofs PowProofs IPComp Derived Calc CalcH
  Range RangeProofs RangeProofs2 RangeProofs3 BigInt BigPrims KecComp KecCompProofs Bn254Primes PropsBigInt PropsFp NativeFp.
Import ListNotations.
Local Open Scope Z_scope.

Section Native.
Context (p : positive) (lb : nat) (Hp : prime (Z.pos p)) (Hlb : (1 <= lb < 64)%nat) (Hlb2 : (2 * lb <= CAPACITY p)%nat).
Notation AV := (AV p).
Let T : env (p:=p) -> Prop := fun _ => True.
Let i64 s := - 2 ^ 63 < s < 2 ^ 63.
Let top {A} (_ : A) : Prop := True.
Add Ring Fringp : (F_ring p) (morphism (F_morph p), constants [Fcst]).
Ltac snd H := eapply sound_weaken; [apply (h_sound lb _ _ _ _ _ H)|cbv beta|cbv beta]; unfold top; auto.
Ltac cmp H := eapply comp_weaken; [apply (h_comp lb _ _ _ _ _ H)|cbv beta|cbv beta|cbv beta]; auto.
(** the three cells in play *)
Notation L3 a b c := [a; b; c].

Lemma n_mul L (Pre : env (p:=p) -> Prop) (Hon : Prop) a b : In a L -> In b L -> hcalc lb L Pre Hon (nf_mul a b) (fun _ => True) (fun e o => e o = (e a * e b)%F) one.
Proof.
  intros Ia Ib. unfold nf_mul. eapply h_bind; [apply n_mul_nc; auto|]. cbv beta. intros c _. apply h_ret; auto; [apply incl_appl, incl_refl|]. cbv beta. tauto.
Qed.
Lemma n_range_check L (Pre : env (p:=p) -> Prop) (Hon : Prop) a mb : In a L -> (Hon -> Pre hval -> val (hval a) < 2 ^ Z.of_nat mb) ->
  hcalc lb L Pre Hon (nf_range_check lb a mb) (fun _ => True) (fun e _ => val (e a) < 2 ^ Z.of_nat mb) (fun _ => []).
Proof.
  intros Ia H. unfold nf_range_check. destruct (Nat.ltb_spec mb (NUM_BITS p)).
  - apply h_range_check; auto. intros Hh HP. split; [|auto]. unfold NUM_BITS in *. lia.
  - apply h_ret; [auto|intros x []|]. intros e _. pose proof (val_bounds p (e a)). pose proof (CAPACITY_bound p). 
    assert (2 ^ Z.of_nat (NUM_BITS p) <= 2 ^ Z.of_nat mb) by (apply Z.pow_le_mono_r; lia). lia.
Qed.
(** every satisfying assignment gives the outputs these values *)
Theorem C75_arith_sound : forall (a b sel : AV) (c : F p) (s : Z), i64 s ->
  sound lb (nf_load_constant c) top (fun sg o => avs sg o = c) /\
  sound lb (nf_add_no_carry a b) top (fun sg o => avs sg o = (avs sg a + avs sg b)%F) /\
  sound lb (nf_add_constant_no_carry a c) top (fun sg o => avs sg o = (avs sg a + c)%F) /\
  sound lb (nf_sub_no_carry a b) top (fun sg o => avs sg o = (avs sg a - avs sg b)%F) /\
  sound lb (nf_negate a) top (fun sg o => avs sg o = (- avs sg a)%F) /\
  sound lb (nf_mul a b) top (fun sg o => avs sg o = (avs sg a * avs sg b)%F) /\
  sound lb (nf_scalar_mul_no_carry a s) top (fun sg o => avs sg o = (avs sg a * of_Z p s)%F) /\
  sound lb (nf_scalar_mul_and_add_no_carry a b s) top (fun sg o => avs sg o = (avs sg a * of_Z p s + avs sg b)%F) /\
  sound lb (nf_select a b sel) top (fun sg o => (avs sg sel = F1 -> avs sg o = avs sg a) /\ (avs sg sel = F0 -> avs sg o = avs sg b)) /\
  sound lb (nf_check_carry_mod_to_zero a) top (fun sg _ => avs sg a = F0) /\
  sound lb (nf_assert_equal a b) top (fun sg _ => avs sg a = avs sg b) /\
  sound lb (nf_divide a b) top (fun sg o => avs sg b <> F0 /\ avs sg o = (avs sg a * Finv (avs sg b))%F) /\
  sound lb (nf_neg_divide a b) top (fun sg o => avs sg b <> F0 /\ avs sg o = (- avs sg a * Finv (avs sg b))%F) /\
  sound lb (nf_divide_unsafe a b) top (fun sg o => (avs sg o * avs sg b)%F = avs sg a) /\
  sound lb (nf_neg_divide_unsafe a b) top (fun sg o => (avs sg o * avs sg b)%F = (- avs sg a)%F).
Proof.
  intros a b sel c s Hs.
  assert (Ia : In a (L3 a b sel)) by (cbn; auto). assert (Ib : In b (L3 a b sel)) by (cbn; auto). assert (Ic : In sel (L3 a b sel)) by (cbn; auto).
  assert (Q : forall x y z : F p, y <> F0 -> (x * y)%F = z -> x = (z * Finv y)%F).
  { intros x y z Hy <-. pose proof (Finv_l _ _ Hp Hy) as E. transitivity (x * (Finv y * y))%F; [rewrite E; ring|ring]. }
  repeat match goal with |- _ /\ _ => split end.
  - eapply sound_weaken; [apply sound_load_constant|unfold top; auto|]. cbv beta. intros; tauto.
  - snd (n_add lb (L3 a b sel) T False a b Ia Ib).
  - snd (n_addc lb (L3 a b sel) T False a c Ia).
  - snd (n_sub lb (L3 a b sel) T False a b Ia Ib).
  - snd (n_negate lb (L3 a b sel) T False a Ia).
  - snd (n_mul (L3 a b sel) T False a b Ia Ib).
  - snd (n_smul lb Hlb Hlb2 (L3 a b sel) T False a s Ia Hs).
  - snd (n_smul_add lb Hlb Hlb2 (L3 a b sel) T False a b s Ia Ib Hs).
  - snd (n_select lb (L3 a b sel) T False a b sel Ia Ib Ic). intros sg o _ ->. split; intros ->; ring.
  - snd (h_assert_is_const lb (L3 a b sel) T False a F0 Ia ltac:(intros [])).
  - snd (h_constrain_equal lb (L3 a b sel) T False a b Ia Ib ltac:(intros [])).
  - pose proof (n_divide lb Hp true (L3 a b sel) T False a b Ia Ib ltac:(intros [])) as H. snd H. intros sg o _ [N E]. auto.
  - pose proof (n_divide lb Hp false (L3 a b sel) T False a b Ia Ib ltac:(intros [])) as H. snd H. intros sg o _ [N E]. auto.
  - pose proof (n_divide_unsafe lb Hp true (L3 a b sel) T False a b Ia Ib ltac:(intros [])) as H. snd H.
  - pose proof (n_divide_unsafe lb Hp false (L3 a b sel) T False a b Ia Ib ltac:(intros [])) as H. snd H.
Qed.

(** the tests: 1 or 0 in every satisfying assignment. [is_soft_nonzero] is the exception: it negates with [gate.neg] instead of [gate.not], and so gives 0 for
    every non-zero element and -1 for zero. *)
Theorem C75_tests_sound : forall (a b : AV) (mb : nat),
  sound lb (nf_is_zero a) top (fun sg o => avs sg o = if Fis0 (avs sg a) then F1 else F0) /\
  sound lb (nf_is_soft_zero a) top (fun sg o => avs sg o = if Fis0 (avs sg a) then F1 else F0) /\
  sound lb (nf_is_equal a b) top (fun sg o => avs sg o = if Feqb (avs sg a) (avs sg b) then F1 else F0) /\
  sound lb (nf_is_equal_unenforced a b) top (fun sg o => avs sg o = if Feqb (avs sg a) (avs sg b) then F1 else F0) /\
  sound lb (nf_range_check lb a mb) top (fun sg _ => 0 <= val (avs sg a) < 2 ^ Z.of_nat mb) /\
  sound lb (nf_is_soft_nonzero a) top (fun sg o => avs sg o = if Fis0 (avs sg a) then (- F1)%F else F0).
Proof.
  intros a b mb. assert (Ia : In a [a; b]) by (cbn; auto). assert (Ib : In b [a; b]) by (cbn; auto).
  assert (FB : forall b : bool, fbool b = if b then F1 else F0 :> F p) by (intros []; reflexivity).
  repeat match goal with |- _ /\ _ => split end.
  - snd (n_is_zero lb Hp [a; b] T False a Ia); try (intros sg o _ ->; apply FB).
  - snd (n_is_soft_zero lb Hp [a; b] T False a Ia); try (intros sg o _ ->; apply FB).
  - snd (n_is_equal_unenforced lb Hp [a; b] T False a b Ia Ib); try (intros sg o _ ->; apply FB).
  - snd (n_is_equal_unenforced lb Hp [a; b] T False a b Ia Ib); try (intros sg o _ ->; apply FB).
  - snd (n_range_check [a; b] T False a mb Ia ltac:(intros [])). intros sg o _ H. pose proof (val_bounds p (avs sg a)). lia.
  - snd (n_nonzero lb Hp [a; b] T False a Ia).
Qed.
(** and the honest prover always completes, with the same values *)
Theorem C75_complete : forall (a b sel : AV) (x y c : F p) (t : bool) (s : Z) (mb : nat), i64 s -> hv a x -> hv b y -> hv sel (fbool t) ->
  let ok := oks [a; b; sel] in
  let one' (rho : cell -> F p) (o : AV) := av_ok rho o in
  comp lb ok (nf_load_private c) (fun o => hv o c) one' /\
  comp lb ok (nf_add_no_carry a b) (fun o => hv o (x + y)%F) one' /\
  comp lb ok (nf_add_constant_no_carry a c) (fun o => hv o (x + c)%F) one' /\
  comp lb ok (nf_sub_no_carry a b) (fun o => hv o (x - y)%F) one' /\
  comp lb ok (nf_negate a) (fun o => hv o (- x)%F) one' /\
  comp lb ok (nf_mul a b) (fun o => hv o (x * y)%F) one' /\
  comp lb ok (nf_scalar_mul_no_carry a s) (fun o => hv o (x * of_Z p s)%F) one' /\
  comp lb ok (nf_scalar_mul_and_add_no_carry a b s) (fun o => hv o (x * of_Z p s + y)%F) one' /\
  comp lb ok (nf_select a b sel) (fun o => hv o (if t then x else y)) one' /\
  comp lb ok (nf_is_zero a) (fun o => hv o (if Fis0 x then F1 else F0)) one' /\
  comp lb ok (nf_is_equal a b) (fun o => hv o (if Feqb x y then F1 else F0)) one' /\
  comp lb ok (nf_is_soft_nonzero a) (fun o => hv o (if Fis0 x then (- F1)%F else F0)) one' /\
  (x = F0 -> comp lb ok (nf_check_carry_mod_to_zero a) (fun _ => True) (fun _ _ => True)) /\
  (x = y -> comp lb ok (nf_assert_equal a b) (fun _ => True) (fun _ _ => True)) /\
  (val x < 2 ^ Z.of_nat mb -> comp lb ok (nf_range_check lb a mb) (fun _ => True) (fun _ _ => True)) /\
  (y <> F0 -> comp lb ok (nf_divide a b) (fun o => hv o (x * Finv y)%F) one' /\ comp lb ok (nf_neg_divide a b) (fun o => hv o (- x * Finv y)%F) one').
Proof.
  intros a b sel x y c t s mb Hs Ha Hb Hsel ok one'. subst ok one'.
  assert (Ia : In a (L3 a b sel)) by (cbn; auto). assert (Ib : In b (L3 a b sel)) by (cbn; auto). assert (Ic : In sel (L3 a b sel)) by (cbn; auto).
  assert (G : Forall good (L3 a b sel)) by (repeat constructor; eauto using hv_good; try apply Ha; try apply Hb; try apply Hsel; eapply hv_good; eauto).
  pose proof (hv_hval _ _ Ha) as Ea. pose proof (hv_hval _ _ Hb) as Eb. pose proof (hv_hval _ _ Hsel) as Es.
  assert (HV : forall (o : AV) (v : F p), Forall good (one o) -> hval o = v -> hv o v). { intros o v Go <-. now inversion Go. }
  assert (OK : forall (rho : cell -> F p) (o : AV), oks (one o) rho -> av_ok rho o). { intros rho o H. now inversion H. }
  assert (FB : forall b : bool, fbool b = if b then F1 else F0 :> F p) by (intros []; reflexivity).
  assert (Q : forall x y z : F p, y <> F0 -> (x * y)%F = z -> x = (z * Finv y)%F).
  { intros x0 y0 z0 Hy <-. pose proof (Finv_l _ _ Hp Hy) as E. transitivity (x0 * (Finv y0 * y0))%F; [rewrite E; ring|ring]. }
  repeat match goal with |- _ /\ _ => split end.
  - cmp (h_load_witness lb (L3 a b sel) T True c). intros o (E & Go & _). auto.
  - cmp (n_add lb (L3 a b sel) T True a b Ia Ib). intros o (_ & Go & E). apply HV; auto. congruence.
  - cmp (n_addc lb (L3 a b sel) T True a c Ia). intros o (_ & Go & E). apply HV; auto. congruence.
  - cmp (n_sub lb (L3 a b sel) T True a b Ia Ib). intros o (_ & Go & E). apply HV; auto. congruence.
  - cmp (n_negate lb (L3 a b sel) T True a Ia). intros o (_ & Go & E). apply HV; auto. congruence.
  - cmp (n_mul (L3 a b sel) T True a b Ia Ib). intros o (_ & Go & E). apply HV; auto. congruence.
  - cmp (n_smul lb Hlb Hlb2 (L3 a b sel) T True a s Ia Hs). intros o (_ & Go & E). apply HV; auto. congruence.
  - cmp (n_smul_add lb Hlb Hlb2 (L3 a b sel) T True a b s Ia Ib Hs). intros o (_ & Go & E). apply HV; auto. congruence.
  - cmp (n_select lb (L3 a b sel) T True a b sel Ia Ib Ic). intros o (_ & Go & E). apply HV; auto. rewrite E, Ea, Eb, Es. destruct t; cbn [fbool]; ring.
  - cmp (n_is_zero lb Hp (L3 a b sel) T True a Ia). intros o (_ & Go & E). apply HV; auto. rewrite E, Ea. apply FB.
  - cmp (n_is_equal_unenforced lb Hp (L3 a b sel) T True a b Ia Ib). intros o (_ & Go & E). apply HV; auto. rewrite E, Ea, Eb. apply FB.
  - cmp (n_nonzero lb Hp (L3 a b sel) T True a Ia). intros o (_ & Go & E). apply HV; auto. now rewrite E, Ea.
  - intros Hx. cmp (h_assert_is_const lb (L3 a b sel) T True a F0 Ia ltac:(congruence)).
  - intros Hx. cmp (h_constrain_equal lb (L3 a b sel) T True a b Ia Ib ltac:(congruence)).
  - intros Hx. cmp (n_range_check (L3 a b sel) T True a mb Ia ltac:(rewrite Ea; auto)).
  - intros Hy. split.
    + pose proof (n_divide lb Hp true (L3 a b sel) T True a b Ia Ib ltac:(congruence)) as H. cmp H. intros o (_ & Go & N & E). apply HV; auto. rewrite Ea, Eb in E. auto.
    + pose proof (n_divide lb Hp false (L3 a b sel) T True a b Ia Ib ltac:(congruence)) as H. cmp H. intros o (_ & Go & N & E). apply HV; auto. rewrite Ea, Eb in E. auto.
Qed.
(** "returns 1 iff the element is non-zero" (the contract of [is_soft_nonzero] in the [FieldChip] trait, met by FpChip) is false of this chip:
    on a non-zero element the honest output, and the output in every satisfying assignment, is not 1 *)
Theorem C75_is_soft_nonzero_refuted : forall (a : AV) (x : F p), hv a x -> x <> F0 ->
  comp lb (oks [a]) (nf_is_soft_nonzero a) (fun o => hv o F0 /\ F0 <> F1 :> F p) (fun rho o => av_ok rho o) /\
  sound lb (nf_is_soft_nonzero a) top (fun sg o => avs sg a <> F0 -> avs sg o = F0).
Proof.
  intros a x Ha Hx. assert (Z0 : forall x : F p, x <> F0 -> Fis0 x = false) by (intros x0 N; destruct (Fis0 x0) eqn:E; auto; apply Fis0_true in E; contradiction). split.
  - cmp (n_nonzero lb Hp [a] T True a ltac:(now left)).
    + constructor; auto. eapply hv_good; eauto.
    + intros o (_ & Go & E). inversion Go as [|? ? G _]; subst. rewrite (hv_hval _ _ Ha), Z0 in E by auto. rewrite <- E at 1. split; [exact G|]. intros X. symmetry in X. now apply (F1_neq_0 p Hp) in X.
    + intros rho o _ _ H. now inversion H.
  - snd (n_nonzero lb Hp [a] T False a ltac:(now left)). intros sg o _ -> N. now rewrite Z0.
Qed.
End Native.
(** on BN254's scalar field: load 12 and 4, divide, compare with 3; and [is_soft_nonzero(12)] is 0 *)
Section Instance.
Local Open Scope monad_scope.
Notation z := (of_Z bn_r).
Add Ring Fringbn : (F_ring bn_r) (morphism (F_morph bn_r), constants [Fcst]).
Example C75_example : comp (p:=bn_r) 17 (fun _ => True)
  (t <- nf_load_private F1 ;; a <- nf_load_private (z 12) ;; b <- nf_load_private (z 4) ;; q <- nf_divide a b ;; w <- nf_load_private (z 3) ;; o <- nf_is_equal q w ;; ret (q, o))
  (fun r => hv (fst r) (z 3) /\ hv (snd r) F1) (fun _ _ => True).
Proof.
  pose proof bn254_r_prime as Hp. assert (Hlb : (1 <= 17 < 64)%nat) by lia. assert (Hlb2 : (2 * 17 <= CAPACITY bn_r)%nat) by (rewrite bn_cap; lia).
  assert (HL : forall v, comp (p:=bn_r) 17 (fun _ => True) (nf_load_private v) (fun o => hv o v) (fun rho o => av_ok rho o)) by (intros v; apply comp_load_witness).
  eapply comp_bind; [apply HL|cbv beta; auto|]. cbv beta. intros t Ht.
  eapply comp_bind; [apply HL|cbv beta; auto|]. cbv beta. intros a Ha.
  eapply comp_bind; [apply HL|cbv beta; auto|]. cbv beta. intros b Hb.
  assert (N4 : z 4 <> F0). { intros E. apply (f_equal val) in E. vm_compute in E. discriminate. }
  assert (H0 : - 2 ^ 63 < 0 < 2 ^ 63) by lia.
  destruct (C75_complete bn_r 17 Hp Hlb Hlb2 a b t _ _ F0 true 0 0 H0 Ha Hb Ht) as (_ & _ & _ & _ & _ & _ & _ & _ & _ & _ & _ & _ & _ & _ & _ & D). destruct (D N4) as [D1 _].
  eapply comp_bind; [exact D1|cbv beta; intros rho [[[_ A] B] C]; apply Forall_cons; [|apply Forall_cons; [|apply Forall_cons]]; auto|]. cbv beta. intros q Hq.
  assert (E : (z 12 * Finv (z 4))%F = z 3). { replace (z 12) with (z 3 * z 4)%F by (apply F_eq; vm_compute; reflexivity). pose proof (Finv_l bn_r (z 4) Hp N4) as I0.
    transitivity (z 3 * (Finv (z 4) * z 4))%F; [|rewrite I0]; ring. }
  rewrite E in Hq. eapply comp_bind; [apply HL|cbv beta; auto|]. cbv beta. intros w Hw.
  destruct (C75_complete bn_r 17 Hp Hlb Hlb2 q w t _ _ F0 true 0 0 H0 Hq Hw Ht) as (_ & _ & _ & _ & _ & _ & _ & _ & _ & _ & Q & _).
  eapply comp_bind; [exact Q|cbv beta; intros rho [[[[[_ A] B] C] D'] E']; apply Forall_cons; [|apply Forall_cons; [|apply Forall_cons]]; auto|]. cbv beta. intros o Ho.
  rewrite (proj2 (Feqb_eq _ _ _) eq_refl) in Ho. apply comp_ret; auto.
Qed.
End Instance.
