(** FpField continued: comparisons, selection, loading, multiplication and division. *)
From Coq Require Import ZArith Znumtheory Lia List Bool Ring.
From Coq Require Import ZArith Znumtheory Lia List Bool Ring.
From Verif Require Import Field Spec Context ContextProofs Utils Logic Gate GateProofs ChainProofs IPProofs BitProofs PowProofs IPComp Derived
  Range RangeProofs RangeProofs2 RangeProofs3 RegionGets Calc CalcH RegionPrev RegionLast BigPrims BigNum BigInt BigSpec BigOps BigSel BigCmp BigSub BigCarry BigMod BigCrtNum BigCrt FpChip FpProofs FpProofs2 FpProofs3 FpField FpField2.
Import ListNotations.
Local Open Scope Z_scope.

Section FpField3.
Context {p : positive}.
Notation Fp := (F p).
Notation AV := (AV p).
Notation crt := (crt p).
Variables (lb : nat) (m : positive).
Notation env := (env (p:=p)).
Notation hcalc := (hcalc lb).
Hypothesis Hp : prime (Z.pos p).
Hypothesis Hlb : (1 <= lb < 64)%nat.
Hypothesis Hlb2 : (2 * lb <= CAPACITY p)%nat.
Hypothesis Hm : 1 < Z.pos m.
Add Ring Fring : (F_ring p) (morphism (F_morph p), constants [Fcst]).
Add Ring Fringm : (F_ring m) (morphism (F_morph m), constants [Fcst]).
Variables (ch : fpchip p) (n k : nat).
Hypothesis HN : fpchip_new m n k = Some ch.
Hypothesis HK : fp_params (p:=p) lb m n k.
Notation mz := (Z.pos m).
Notation Fm := (F m).
Notation M2 := (2 ^ Z.of_nat (bits mz)).
Notation W := (2 ^ Z.of_nat (n * k + NUM_BITS p)).
Notation frep := (frep (p:=p) m n).
Notation fred := (fred (p:=p) m n).
Notation fcan := (fcan (p:=p) m n).
Notation isk := (isk k).
Notation fit_mod := (fit_mod (p:=p) lb n k).
Notation fit_zero := (fit_zero (p:=p) lb n k).
Notation lg := (log2_ceil (Z.of_nat k)).
Notation K1 := (n + n + Nat.max lg (bit_length (Z.of_nat k)))%nat.

(** a simple sufficient condition for the carry checks to fit *)
Lemma fit_mod_simple b : (Nat.max (b + 1) (2 * n + bit_length (Z.of_nat k)) + lb + 2 <= CAPACITY p)%nat -> fit_mod b.
Proof.
  intros H. unfold FpProofs3.fit_mod. pose proof (carry_range_bits_bounds lb (check_bits n b (bit_length (Z.of_nat k))) n ltac:(lia)) as R.
  destruct HK as ((_ & Hn & _) & _). unfold check_bits in *. lia.
Qed.
Lemma fit_zero_simple b : (Nat.max b (2 * n + bit_length (Z.of_nat k)) + lb + 2 <= CAPACITY p)%nat -> fit_zero b.
Proof.
  intros H. unfold FpProofs3.fit_zero. pose proof (carry_range_bits_bounds lb (Nat.max b (2 * n + bit_length (Z.of_nat k))) n ltac:(lia)) as R. lia.
Qed.

Section Ops.
Variables (L : list AV) (Pre : env -> Prop) (Hon : Prop).

Lemma f_div_safe (dv : M p crt) (a b : crt) ba sg : cpre L a -> cpre L b -> isk a ba -> isk b n ->
  (Hon -> zcap (p:=p) n k) ->
  (Hon -> Pre hval -> exists Ba u v, frep True hval a Ba u /\ fred True hval b v /\ 8 * (M2 * M2 + Ba) < W /\ v <> F0) ->
  (forall L (Pre : env -> Prop), cpre L a -> cpre L b -> (Hon -> Pre hval -> exists Ba Bb u v, frep True hval a Ba u /\ frep True hval b Bb v /\ 8 * (M2 * Bb + Ba) < W /\ (u = F0 \/ v <> F0)) ->
     hcalc L Pre Hon dv (fun c => isk c n)
      (fun e c => forall h Ba Bb u v, frep h e a Ba u -> frep h e b Bb v -> 8 * (M2 * Bb + Ba) < W -> (h -> u = F0 \/ v <> F0) ->
         exists w, fred h e c w /\ (w * v)%F = (of_Z m sg * u)%F) ccells) ->
  hcalc L Pre Hon (bind (fp_is_zero lb ch b) (fun z => bind (assert_is_const z F0) (fun _ => dv))) (fun c => isk c n)
    (fun e c => forall h Ba u v, frep h e a Ba u -> fred h e b v -> 8 * (M2 * M2 + Ba) < W ->
       v <> F0 /\ fcan h e b v /\ exists w, fred h e c w /\ (w * v)%F = (of_Z m sg * u)%F) ccells.
Proof.
  intros Ca Cb Ka Kb HZ HH Hdv.
  eapply h_bind; [apply (f_is_zero lb m Hp Hlb Hlb2 Hm ch n k HN HK L Pre Hon b); auto|].
  { intros Hh HP. destruct (HH Hh HP) as (Ba & u & v & _ & B & _). eauto. }
  cbv beta. intros z _. eapply h_bind; [apply h_assert_is_const|].
  { now left. }
  { intros Hh [HP R]. destruct (HH Hh HP) as (Ba & u & v & _ & B & _ & Hv). destruct (R True v B) as [_ ->]. apply Fis0_false in Hv. now rewrite Hv. }
  cbv beta. intros [] _. cbn [app].
  eapply h_post; [apply Hdv| | |].
  - intros x Hx. right. apply Ca. auto.
  - intros x Hx. right. apply Cb. auto.
  - cbv beta. intros Hh [[HP _] _]. destruct (HH Hh HP) as (Ba & u & v & A & B & D & Hv). exists Ba, M2, u, v. split; auto. split; [now apply (fred_frep lb m Hlb Hlb2)|]. auto.
  - auto.
  - cbv beta. intros e c _ [[HP R] E] RD h Ba u v A B D. destruct (R h v B) as [C1 C2].
    assert (Hv : v <> F0). { rewrite E in C2. change (@F0 p) with (fbool (p:=p) false) in C2. apply (fbool_inj Hp) in C2. symmetry in C2. now apply Fis0_false in C2. }
    split; auto. split; auto. apply (RD h Ba M2 u v); auto. now apply (fred_frep lb m Hlb Hlb2).
  - intros c _. apply incl_appl, incl_refl.
Qed.
Lemma f_divide (a b : crt) ba : cpre L a -> cpre L b -> isk a ba -> isk b n ->
  fit_zero (Nat.max (lg + n + n) ba + 1) -> (Hon -> zcap (p:=p) n k) -> (Hon -> prime mz) ->
  (Hon -> Pre hval -> exists Ba u v, frep True hval a Ba u /\ fred True hval b v /\ 8 * (M2 * M2 + Ba) < W /\ v <> F0) ->
  hcalc L Pre Hon (fp_divide lb m ch a b) (fun c => isk c n)
    (fun e c => forall h Ba u v, frep h e a Ba u -> fred h e b v -> 8 * (M2 * M2 + Ba) < W ->
       v <> F0 /\ fcan h e b v /\ exists w, fred h e c w /\ (w * v)%F = u) ccells.
Proof.
  intros Ca Cb Ka Kb Hf HZ Pm HH. unfold fp_divide.
  eapply h_post; [apply (f_div_safe _ a b ba 1); auto| | |]; cbv beta; auto.
  - intros L' Pre' Ca' Cb' HH'. apply (f_div_gen lb m Hp Hlb Hlb2 Hm ch n k HN HK L' Pre' Hon 1 a b ba n); auto.
  - intros e c _ _ R h Ba u v A B C. destruct (R h Ba u v A B C) as (X1 & X2 & w & W1 & W2). split; auto. split; auto. exists w. split; auto. rewrite W2. change (of_Z m 1) with (F1 : Fm). ring.
  - intros c _. apply incl_appl, incl_refl.
Qed.
Lemma f_neg_divide (a b : crt) ba : cpre L a -> cpre L b -> isk a ba -> isk b n ->
  fit_zero (Nat.max (lg + n + n) ba + 1) -> (Hon -> zcap (p:=p) n k) -> (Hon -> prime mz) ->
  (Hon -> Pre hval -> exists Ba u v, frep True hval a Ba u /\ fred True hval b v /\ 8 * (M2 * M2 + Ba) < W /\ v <> F0) ->
  hcalc L Pre Hon (fp_neg_divide lb m ch a b) (fun c => isk c n)
    (fun e c => forall h Ba u v, frep h e a Ba u -> fred h e b v -> 8 * (M2 * M2 + Ba) < W ->
       v <> F0 /\ fcan h e b v /\ exists w, fred h e c w /\ (w * v)%F = (- u)%F) ccells.
Proof.
  intros Ca Cb Ka Kb Hf HZ Pm HH. unfold fp_neg_divide.
  eapply h_post; [apply (f_div_safe _ a b ba (-1)); auto| | |]; cbv beta; auto.
  - intros L' Pre' Ca' Cb' HH'. apply (f_div_gen lb m Hp Hlb Hlb2 Hm ch n k HN HK L' Pre' Hon (-1) a b ba n); auto.
  - intros e c _ _ R h Ba u v A B C. destruct (R h Ba u v A B C) as (X1 & X2 & w & W1 & W2). split; auto. split; auto. exists w. split; auto. rewrite W2.
    change (-1) with (- (1)). rewrite of_Z_opp. change (of_Z m 1) with (F1 : Fm). ring.
  - intros c _. apply incl_appl, incl_refl.
Qed.

Lemma max_bits_const (a : list crt) b : a <> [] -> Forall (fun c => c_bits c = b) a -> max_bits (map c_trunc a) = b.
Proof.
  intros HN0 HF. unfold max_bits.
  assert (G : forall l acc, (acc <= b)%nat -> Forall (fun c : crt => c_bits c = b) l -> fold_left (fun acc x => Nat.max acc (o_bits x)) (map c_trunc l) acc = match l with [] => acc | _ => b end).
  { induction l as [|x l IH]; intros acc Ha Hl; auto. inversion Hl; subst. cbn [map fold_left]. rewrite IH; auto; [|fold (c_bits x); lia].
    destruct l; auto. fold (c_bits x). lia. }
  rewrite G; auto; [|lia]. destruct a; [contradiction|auto].
Qed.
(** select_by_indicator of carried elements: exactly the indicated one *)
Lemma f_sbi (a : list crt) (coeffs : list AV) : a <> [] -> Forall (cpre L) a -> incl coeffs L -> length a = length coeffs -> Forall (fun c => isk c n) a ->
  (Hon -> Pre hval -> onehot (map hval coeffs)) ->
  hcalc L Pre Hon (fp_select_by_indicator ch a coeffs) (fun c => isk c n)
    (fun e c => forall h j aj v, onehot_at j (map e coeffs) -> nth_error a j = Some aj -> fred h e aj v -> fred h e c v) ccells.
Proof.
  intros HN0 HI Hc HL HKs HO. unfold fp_select_by_indicator.
  destruct (fpchip_new_ok lb m Hp Hlb Hlb2 Hm n k ch HN) as ((_ & _ & _ & _ & FB & _) & Hn & _).
  assert (HB : Forall (fun c : crt => c_bits c = n) a) by (eapply Forall_impl; [|exact HKs]; intros c [_ B]; exact B).
  assert (HLk : Forall (fun c : crt => length (c_limbs c) = k) a) by (eapply Forall_impl; [|exact HKs]; intros c [B _]; exact B).
  eapply h_post; [apply (h_sbi_crt lb Hp L Pre Hon a coeffs (f_bases ch) k); auto| | |]; cbv beta; auto.
  - rewrite FB. now rewrite fbases_length.
  - intros c (X1 & X2 & _). split; auto. rewrite X2. now apply max_bits_const.
  - intros e c (X1 & X2 & X3) _ R h j aj v Hj Haj (z & A & B & C & D). destruct (R j aj Hj Haj) as [EL EN].
    assert (Bc : c_bits c = n) by (rewrite X2; now apply max_bits_const).
    assert (EN' : e (c_nat c) = e (c_nat aj)).
    { destruct (Nat.ltb k (length a)); auto. destruct A as (_ & _ & -> & ->). rewrite EN, FB, fbases_firstn by auto.
      replace (fbases n k 1) with (fbases (p:=p) n (length (map e (c_limbs c))) 1) by now rewrite map_length, X1.
      rewrite dot_bases_val. now rewrite EL, map_map. }
    exists z. split; [eapply same_proper; eauto; now split|]. split; auto. split; auto. intros Hh. destruct (D Hh) as (E1 & E2 & E3). rewrite E1 in *. split; auto. split; auto.
    rewrite X3, (sbi_val_onehot Hp a coeffs 0 j aj); auto.
  - intros c _. apply incl_appl, incl_refl.
Qed.
End Ops.
End FpField3.
