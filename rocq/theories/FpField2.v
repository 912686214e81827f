(** FpField continued: comparisons, selection, loading, multiplication and division. *)
From Coq Require Import ZArith Znumtheory Lia List Bool Ring.
From Verif Require Import Field Spec Context ContextProofs Utils Logic Gate GateProofs ChainProofs IPProofs BitProofs PowProofs IPComp Derived
  Range RangeProofs RangeProofs2 RangeProofs3 RegionGets Calc CalcH RegionPrev RegionLast BigPrims BigNum BigInt BigSpec BigOps BigSel BigCmp BigSub BigCarry BigMod BigCrtNum BigCrt FpChip FpProofs FpProofs2 FpProofs3 FpField.
Import ListNotations.
Local Open Scope Z_scope.

Section FpField2.
Context {p : positive}.
Notation Fp := (F p).
Notation AV := (AV p).
Notation crt := (crt p).
Variables (lb : nat) (m : positive).
Notation env := (env (p:=p)).
Notation hcalc := (hcalc lb).
Hypothesis Hp : prime (Z.pos p).
Hypothesis Hlb : (1 <= lb < 64)%nat.
Hypothesis Hlb2 : (2 * lb <= CAPACITY p)%nat.
Hypothesis Hm : 1 < Z.pos m.
Add Ring Fring : (F_ring p) (morphism (F_morph p), constants [Fcst]).
Add Ring Fringm : (F_ring m) (morphism (F_morph m), constants [Fcst]).
Variables (ch : fpchip p) (n k : nat).
Hypothesis HN : fpchip_new m n k = Some ch.
Hypothesis HK : fp_params (p:=p) lb m n k.
Notation mz := (Z.pos m).
Notation Fm := (F m).
Notation M2 := (2 ^ Z.of_nat (bits mz)).
Notation W := (2 ^ Z.of_nat (n * k + NUM_BITS p)).
Notation frep := (frep (p:=p) m n).
Notation fred := (fred (p:=p) m n).
Notation fcan := (fcan (p:=p) m n).
Notation isk := (isk k).
Notation fit_mod := (fit_mod (p:=p) lb n k).
Notation fit_zero := (fit_zero (p:=p) lb n k).
Notation lg := (log2_ceil (Z.of_nat k)).

(** canonical numbers determine and are determined by the element *)
Lemma can_val z : 0 <= z < mz -> val (of_Z m z) = z.
Proof. intros H. now apply val_of_Z_small. Qed.
Lemma can_zero z : 0 <= z < mz -> Fis0 (of_Z m z) = (z =? 0).
Proof.
  intros H. apply eq_true_iff_eq. rewrite Fis0_true, Z.eqb_eq. split.
  - intros E. apply (f_equal val) in E. now rewrite can_val, (val_0 m) in E.
  - now intros ->.
Qed.
Lemma can_eq z w : 0 <= z < mz -> 0 <= w < mz -> Feqb (of_Z m z) (of_Z m w) = (z =? w).
Proof.
  intros H H'. apply eq_true_iff_eq. rewrite Feqb_eq, Z.eqb_eq. split.
  - intros E. apply (f_equal val) in E. now rewrite !can_val in E by auto.
  - now intros ->.
Qed.
Lemma fred_hon_can h e c v : (h : Prop) -> fred h e c v -> fcan h e c v.
Proof. intros Hh (z & A & B & C & D). destruct (D Hh) as (E1 & E2 & E3). exists z. auto. Qed.
Lemma fred_nonneg h e c v : fred h e c v -> exists z, 0 <= z /\ proper n e c z /\ z < M2 /\ of_Z m z = v /\ (h -> e = hval /\ c_val c = z /\ z < mz).
Proof. intros (z & A & B & C & D). pose proof (proper_bound _ _ _ _ A). exists z. split; [lia|auto]. Qed.
Lemma isk_bits e h c v : fred h e c v -> c_bits c = n. Proof. intros (z & (A & _) & _). exact A. Qed.

Section Ops.
Variables (L : list AV) (Pre : env -> Prop) (Hon : Prop).

Lemma f_divide_unsafe (a b : crt) ba bb : cpre L a -> cpre L b -> isk a ba -> isk b bb ->
  fit_zero (Nat.max (lg + n + bb) ba + 1) -> (Hon -> prime mz) ->
  (Hon -> Pre hval -> exists Ba Bb u v, frep True hval a Ba u /\ frep True hval b Bb v /\ 8 * (M2 * Bb + Ba) < W /\ (u = F0 \/ v <> F0)) ->
  hcalc L Pre Hon (fp_divide_unsafe lb m ch a b) (fun c => isk c n)
    (fun e c => forall h Ba Bb u v, frep h e a Ba u -> frep h e b Bb v -> 8 * (M2 * Bb + Ba) < W -> (h -> u = F0 \/ v <> F0) ->
       exists w, fred h e c w /\ (w * v)%F = u) ccells.
Proof.
  intros Ca Cb Ka Kb Hf Pm HH.
  eapply h_post; [apply (f_div_gen lb m Hp Hlb Hlb2 Hm ch n k HN HK L Pre Hon 1 a b ba bb); auto| | |]; cbv beta; auto.
  - intros e c _ _ R h Ba Bb u v A B C D. destruct (R h Ba Bb u v A B C D) as (w & W1 & W2). exists w. split; auto. rewrite W2. change (of_Z m 1) with (F1 : Fm). ring.
  - intros c _. apply incl_appl, incl_refl.
Qed.
Lemma f_neg_divide_unsafe (a b : crt) ba bb : cpre L a -> cpre L b -> isk a ba -> isk b bb ->
  fit_zero (Nat.max (lg + n + bb) ba + 1) -> (Hon -> prime mz) ->
  (Hon -> Pre hval -> exists Ba Bb u v, frep True hval a Ba u /\ frep True hval b Bb v /\ 8 * (M2 * Bb + Ba) < W /\ (u = F0 \/ v <> F0)) ->
  hcalc L Pre Hon (fp_neg_divide_unsafe lb m ch a b) (fun c => isk c n)
    (fun e c => forall h Ba Bb u v, frep h e a Ba u -> frep h e b Bb v -> 8 * (M2 * Bb + Ba) < W -> (h -> u = F0 \/ v <> F0) ->
       exists w, fred h e c w /\ (w * v)%F = (- u)%F) ccells.
Proof.
  intros Ca Cb Ka Kb Hf Pm HH.
  eapply h_post; [apply (f_div_gen lb m Hp Hlb Hlb2 Hm ch n k HN HK L Pre Hon (-1) a b ba bb); auto| | |]; cbv beta; auto.
  - intros e c _ _ R h Ba Bb u v A B C D. destruct (R h Ba Bb u v A B C D) as (w & W1 & W2). exists w. split; auto. rewrite W2.
    change (-1) with (- (1)). rewrite of_Z_opp. change (of_Z m 1) with (F1 : Fm). ring.
  - intros c _. apply incl_appl, incl_refl.
Qed.
Lemma f_mul (a b : crt) ba bb : cpre L a -> cpre L b -> isk a ba -> isk b bb -> fit_mod (lg + ba + bb) ->
  (Hon -> Pre hval -> exists Ba Bb u v, frep True hval a Ba u /\ frep True hval b Bb v /\ 8 * (Ba * Bb) < W) ->
  hcalc L Pre Hon (fp_mul lb ch a b) (fun c => isk c n)
    (fun e c => forall h Ba Bb u v, frep h e a Ba u -> frep h e b Bb v -> 8 * (Ba * Bb) < W -> fred h e c (u * v)%F) ccells.
Proof.
  intros Ca Cb Ka Kb Hf HH. unfold fp_mul.
  eapply h_bind; [apply (f_mul_nc lb m Hp Hlb Hlb2 Hm ch n k HN HK L Pre Hon a b ba bb); auto|]. cbv beta. intros c Kc.
  eapply h_post; [apply (f_carry lb m Hp Hlb Hlb2 Hm ch n k HN HK _ _ Hon c (lg + ba + bb))| | |]; cbv beta; try exact Kc; auto.
  - apply incl_appl, incl_refl.
  - intros Hh [HP R]. destruct (HH Hh HP) as (Ba & Bb & u & v & A & B & C). exists (Ba * Bb), (u * v)%F. split; auto.
  - intros e d _ [HP R1] R2 h Ba Bb u v A B C. eauto.
  - intros d _. apply incl_appl, incl_refl.
Qed.
Lemma f_enforce (a : crt) ba : cpre L a -> isk a ba -> (Hon -> Pre hval -> exists v, fred True hval a v) ->
  hcalc L Pre Hon (enforce_less_than_p lb ch a) (fun _ => True) (fun e _ => forall h v, fred h e a v -> fcan h e a v) (fun _ => []).
Proof.
  intros Ca [La _] HH.
  eapply h_post; [apply (h_enforce_less_than_p lb m Hp Hlb Hlb2 Hm ch n k HN HK L Pre Hon a); auto| | |]; cbv beta; auto.
  - intros Hh HP. destruct (HH Hh HP) as (v & z & A & B & C & D). destruct (D I) as (_ & _ & E). eauto.
  - intros e _ _ _ R h v (z & A & B & C & D). exists z. split; auto. split; auto. split; auto. intros Hh. now destruct (D Hh) as (? & ? & ?).
  - intros c _. apply incl_appl, incl_refl.
Qed.
Lemma f_enforce_lt (a : crt) ba : cpre L a -> isk a ba -> (Hon -> Pre hval -> exists v, fred True hval a v) ->
  hcalc L Pre Hon (fp_enforce_less_than lb ch a) (fun c => c = a) (fun e _ => forall h v, fred h e a v -> fcan h e a v) (fun _ => []).
Proof.
  intros Ca Ka HH. unfold fp_enforce_less_than. eapply h_bind; [apply (f_enforce a ba); auto|]. cbv beta. intros _ _. apply h_ret; auto.
  - intros x [].
  - tauto.
Qed.
Lemma f_is_zero (a : crt) : cpre L a -> isk a n -> (Hon -> zcap (p:=p) n k) -> (Hon -> Pre hval -> exists v, fred True hval a v) ->
  hcalc L Pre Hon (fp_is_zero lb ch a) (fun _ => True) (fun e o => forall h v, fred h e a v -> fcan h e a v /\ e o = fbool (Fis0 v)) one.
Proof.
  intros Ca [La Ba] HZ HH.
  eapply h_post; [apply (h_fp_is_zero lb m Hp Hlb Hlb2 Hm ch n k HN HK L Pre Hon a); auto| | |]; cbv beta; auto.
  - intros Hh HP. destruct (HH Hh HP) as (v & z & A & B & C & D). destruct (D I) as (_ & _ & E). eauto.
  - intros e o _ _ R h v F. destruct (fred_nonneg _ _ _ _ F) as (z & N & A & B & C & D). destruct (R z A) as [Hz Eo]. split.
    + exists z. split; auto. split; auto. split; auto. intros Hh. now destruct (D Hh) as (? & ? & ?).
    + rewrite Eo, <- C, can_zero by lia. reflexivity.
  - intros c _. apply incl_appl, incl_refl.
Qed.
Lemma f_is_soft_zero (a : crt) : cpre L a -> isk a n -> (Hon -> zcap (p:=p) n k) ->
  hcalc L Pre Hon (fp_is_soft_zero a) (fun _ => True) (fun e o => forall h v, fcan h e a v -> e o = fbool (Fis0 v)) one.
Proof.
  intros Ca [La Ba] HZ.
  eapply h_post; [apply (h_fp_is_soft_zero lb m Hp Hlb Hlb2 n k HK L Pre Hon a); auto| | |]; cbv beta; auto.
  - intros e o _ _ R h v (z & A & B & C & D). pose proof (proper_bound _ _ _ _ A). rewrite (R z A), <- C, can_zero by lia. reflexivity.
  - intros c _. apply incl_appl, incl_refl.
Qed.
Lemma f_is_equal_unenforced (a b : crt) ba bb : cpre L a -> cpre L b -> isk a ba -> isk b bb ->
  hcalc L Pre Hon (fp_is_equal_unenforced a b) (fun _ => True) (fun e o => forall h u v, fcan h e a u -> fcan h e b v -> e o = fbool (Feqb u v)) one.
Proof.
  intros Ca Cb [La _] [Lb _].
  eapply h_post; [apply (h_fp_is_equal_unenforced lb m Hp Hlb Hlb2 n k HK L Pre Hon a b); auto| | |]; cbv beta; auto.
  - intros e o _ _ R h u v (z & A & B & C & D) (w & A' & B' & C' & D'). pose proof (proper_bound _ _ _ _ A). pose proof (proper_bound _ _ _ _ A').
    rewrite (R z w A A'), <- C, <- C', can_eq by lia. reflexivity.
  - intros c _. apply incl_appl, incl_refl.
Qed.
Lemma f_is_equal (a b : crt) ba bb : cpre L a -> cpre L b -> isk a ba -> isk b bb -> (Hon -> Pre hval -> exists u v, fred True hval a u /\ fred True hval b v) ->
  hcalc L Pre Hon (fp_is_equal lb ch a b) (fun _ => True) 
    (fun e o => forall h u v, fred h e a u -> fred h e b v -> fcan h e a u /\ fcan h e b v /\ e o = fbool (Feqb u v)) one.
Proof.
  intros Ca Cb [La _] [Lb _] HH.
  eapply h_post; [apply (h_fp_is_equal lb m Hp Hlb Hlb2 Hm ch n k HN HK L Pre Hon a b); auto| | |]; cbv beta; auto.
  - intros Hh HP. destruct (HH Hh HP) as (u & v & (z & A & B & C & D) & (w & A' & B' & C' & D')). destruct (D I) as (_ & _ & E). destruct (D' I) as (_ & _ & E'). eauto 8.
  - intros e o _ _ R h u v (z & A & B & C & D) (w & A' & B' & C' & D'). pose proof (proper_bound _ _ _ _ A). pose proof (proper_bound _ _ _ _ A').
    destruct (R z w A A') as (Hz & Hw & Eo). split; [|split].
    + exists z. split; auto. split; auto. split; auto. intros Hh. now destruct (D Hh) as (? & ? & ?).
    + exists w. split; auto. split; auto. split; auto. intros Hh. now destruct (D' Hh) as (? & ? & ?).
    + rewrite Eo, <- C, <- C', can_eq by lia. reflexivity.
  - intros c _. apply incl_appl, incl_refl.
Qed.
Lemma f_assert_equal (a b : crt) ba bb : cpre L a -> cpre L b -> isk a ba -> isk b bb -> (Hon -> Pre hval -> exists u, fred True hval a u /\ fred True hval b u) ->
  hcalc L Pre Hon (fp_assert_equal lb ch a b) (fun _ => True) (fun e _ => forall h u v, fred h e a u -> fred h e b v -> u = v /\ fcan h e a u /\ fcan h e b v) (fun _ => []).
Proof.
  intros Ca Cb [La _] [Lb _] HH.
  eapply h_post; [apply (h_fp_assert_equal lb m Hp Hlb Hlb2 Hm ch n k HN HK L Pre Hon a b); auto| | |]; cbv beta; auto.
  - intros Hh HP. destruct (HH Hh HP) as (u & (z & A & B & C & D) & (w & A' & B' & C' & D')). destruct (D I) as (_ & _ & E). destruct (D' I) as (_ & _ & E').
    pose proof (proper_bound _ _ _ _ A). pose proof (proper_bound _ _ _ _ A'). rewrite <- C in C'. apply (f_equal val) in C'. rewrite !can_val in C' by lia. subst w. eauto.
  - intros e o _ _ R h u v (z & A & B & C & D) (w & A' & B' & C' & D'). destruct (R z w A A') as (<- & Hz). split; [congruence|]. split.
    + exists z. split; auto. split; auto. split; auto. intros Hh. now destruct (D Hh) as (? & ? & ?).
    + exists z. split; auto. split; auto. split; auto. intros Hh. now destruct (D' Hh) as (? & ? & ?).
  - intros c _. apply incl_appl, incl_refl.
Qed.
Lemma f_negate (a : crt) : cpre L a -> isk a n -> (Hon -> zcap (p:=p) n k) -> (Hon -> Pre hval -> exists v, fred True hval a v) ->
  hcalc L Pre Hon (fp_negate lb ch a) (fun c => isk c n) (fun e c => forall h v, fred h e a v -> fred h e c (- v)%F) ccells.
Proof.
  intros Ca [La Ba] HZ HH.
  eapply h_post; [apply (h_fp_negate lb m Hp Hlb Hlb2 Hm ch n k HN HK L Pre Hon a); auto| | |]; cbv beta; auto.
  - intros Hh HP. destruct (HH Hh HP) as (v & z & A & B & C & D). destruct (D I) as (_ & _ & E). exists z. split; auto. lia.
  - intros c (X1 & X2). split; auto. rewrite X2, Ba. apply Nat.max_id.
  - intros e c _ _ R h v (z & A & B & C & D). pose proof (proper_bound _ _ _ _ A). destruct (R z A) as (Hz & Pc & Hv).
    exists (negmod m z). split; auto. split; [|split].
    + unfold negmod. pose proof (m_le_M2 (p:=p) lb m Hlb Hlb2). destruct (z =? 0); lia.
    + rewrite <- C, <- of_Z_opp. apply (of_Z_cong lb m Hlb Hlb2). unfold negmod. destruct (Z.eqb_spec z 0) as [->|Hne]; [exists 0; lia|exists 1; lia].
    + intros Hh. destruct (D Hh) as (E1 & E2 & E3). split; auto. split; auto. unfold negmod. destruct (Z.eqb_spec z 0); lia.
  - intros c _. apply incl_appl, incl_refl.
Qed.
Lemma f_select (a b : crt) sel : cpre L a -> cpre L b -> In sel L -> isk a n -> isk b n ->
  hcalc L Pre Hon (fp_select a b sel) (fun c => isk c n)
    (fun e c => forall h u v (s : bool), e sel = fbool s -> fred h e a u -> fred h e b v -> fred h e c (if s then u else v)) ccells.
Proof.
  intros Ca Cb Cs [La Ba] [Lb Bb]. unfold fp_select.
  eapply h_post; [apply (h_select_crt lb L Pre Hon a b sel); auto; congruence| | |]; cbv beta; auto.
  - intros c (X1 & X2 & _). split; [congruence|]. rewrite X2, Ba, Bb. apply Nat.max_id.
  - intros e c (X1 & X2 & X3) _ R h u v s Es (z & A & B & C & D) (w & A' & B' & C' & D'). pose proof (R s Es) as SV.
    assert (Bc : c_bits c = n) by (rewrite X2, Ba, Bb; apply Nat.max_id).
    assert (SV' : (h : Prop) -> c_val c = if s then c_val a else c_val b).
    { intros Hh. destruct (D Hh) as (E0 & _ & _). rewrite E0 in Es. rewrite X3, Es. rewrite (Fis0_fbool (p:=p)); [now destruct s|auto..]. }
    destruct s.
    + exists z. split; [eapply same_proper; eauto|]. split; auto. split; auto. intros Hh. destruct (D Hh) as (E1 & E2 & E3). rewrite SV' by auto. auto.
    + exists w. split; [eapply same_proper; eauto|]. split; auto. split; auto. intros Hh. destruct (D' Hh) as (E1 & E2 & E3). rewrite SV' by auto. auto.
  - intros c _. apply incl_appl, incl_refl.
Qed.
Lemma f_load_private (a : Fm) :
  hcalc L Pre Hon (fp_load_private lb m ch a) (fun c => isk c n)
    (fun e c => exists v, (forall h : Prop, (h -> e = hval) -> fred h e c v) /\ (e = hval -> v = a)) ccells.
Proof.
  eapply h_post; [apply (h_fp_load_private lb m Hp Hlb Hlb2 Hm ch n k HN HK L Pre Hon a)| | |]; cbv beta; auto.
  - intros c (X1 & X2 & _). now split.
  - intros e c (X1 & X2 & X3 & X4) _ (z & A & B). exists (of_Z m z).
    assert (E : e = hval -> z = val a).
    { intros ->. pose proof (val_bounds m a). pose proof (mz_fits lb m Hlb Hlb2 Hm n k HK). apply (proper_digits_eq lb m Hlb Hlb2 n k hval c (val a) z); auto; try lia.
      destruct HK as (_ & _ & _ & HC & _). lia. }
    split.
    + intros h Hh. exists z. split; auto. split; auto. split; auto. intros h0. rewrite (E (Hh h0)). split; auto. split; auto. apply val_bounds.
    + intros He. rewrite (E He). apply of_Z_val.
  - intros c _. apply incl_appl, incl_refl.
Qed.
Lemma f_load_constant (a : Fm) :
  hcalc L Pre Hon (fp_load_constant m ch a) (fun c => isk c n) (fun e c => forall h : Prop, (h -> e = hval) -> fcan h e c a) ccells.
Proof.
  eapply h_post; [apply (h_fp_load_constant lb m Hp Hlb Hlb2 Hm ch n k HN HK L Pre Hon a)| | |]; cbv beta; auto.
  - intros c (X1 & X2 & _). now split.
  - intros e c (X1 & X2 & X3) _ A h Hh. exists (val a). split; auto. split; [apply val_bounds|]. split; [apply of_Z_val|]. auto.
  - intros c _. apply incl_appl, incl_refl.
Qed.
End Ops.
End FpField2.
