(** FpChip in terms of field elements: what a CRT integer means as an element of [F m], and what every operation does to that meaning.
    [h : Prop] says "and this is the honest prover's view"; soundness uses [h := False], completeness [h := True]. *)
From Coq Require Import ZArith Znumtheory Lia List Bool Ring.
From Verif Require Import Field Spec Context ContextProofs Utils Logic Gate GateProofs ChainProofs IPProofs BitProofs PowProofs IPComp Derived
  Range RangeProofs RangeProofs2 RangeProofs3 RegionGets Calc CalcH RegionPrev RegionLast BigPrims BigNum BigInt BigSpec BigOps BigSel BigCmp BigSub BigCarry BigMod BigCrtNum BigCrt FpChip FpProofs FpProofs2 FpProofs3.
Import ListNotations.
Local Open Scope Z_scope.

Section FpField.
Context {p : positive}.
Notation Fp := (F p).
Notation AV := (AV p).
Notation crt := (crt p).
Variables (lb : nat) (m : positive).
Notation env := (env (p:=p)).
Notation hcalc := (hcalc lb).
Hypothesis Hp : prime (Z.pos p).
Hypothesis Hlb : (1 <= lb < 64)%nat.
Hypothesis Hlb2 : (2 * lb <= CAPACITY p)%nat.
Hypothesis Hm : 1 < Z.pos m.
Add Ring Fring : (F_ring p) (morphism (F_morph p), constants [Fcst]).
Add Ring Fringm : (F_ring m) (morphism (F_morph m), constants [Fcst]).
Variables (ch : fpchip p) (n k : nat).
Hypothesis HN : fpchip_new m n k = Some ch.
Hypothesis HK : fp_params (p:=p) lb m n k.
Notation mz := (Z.pos m).
Notation Fm := (F m).
Notation M2 := (2 ^ Z.of_nat (bits mz)).
Notation W := (2 ^ Z.of_nat (n * k + NUM_BITS p)).

(** an overflowed element: it represents an integer of absolute value at most [B] in the class of [v] *)
Definition frep (h : Prop) (e : env) (c : crt) (B : Z) (v : Fm) : Prop :=
  exists x, crep n e c x /\ Z.abs x <= B /\ of_Z m x = v /\ (h -> e = hval /\ c_val c = x).
(** a carried element: proper limbs spelling a number below [2^bits(m)] (the honest prover's is below [m]) *)
Definition fred (h : Prop) (e : env) (c : crt) (v : Fm) : Prop :=
  exists z, proper n e c z /\ z < M2 /\ of_Z m z = v /\ (h -> e = hval /\ c_val c = z /\ z < mz).
(** a canonical element *)
Definition fcan (h : Prop) (e : env) (c : crt) (v : Fm) : Prop :=
  exists z, proper n e c z /\ z < mz /\ of_Z m z = v /\ (h -> e = hval /\ c_val c = z).

Lemma m_le_M2 : mz < M2.
Proof. apply (bits_bound lb Hlb Hlb2). lia. Qed.
Lemma fred_frep h e c v : fred h e c v -> frep h e c M2 v.
Proof.
  intros (z & A & B & C & D). pose proof (proper_bound _ _ _ _ A). exists z. split; [now apply proper_crep|]. split; [rewrite Z.abs_eq by lia; lia|]. split; auto.
  intros Hh. now destruct (D Hh) as (? & ? & ?).
Qed.
Lemma fcan_fred h e c v : fcan h e c v -> fred h e c v.
Proof. intros (z & A & B & C & D). pose proof m_le_M2. exists z. split; auto. split; [lia|]. split; auto. intros Hh. destruct (D Hh); auto. Qed.
Lemma frep_weaken h e c B B' v : frep h e c B v -> B <= B' -> frep h e c B' v.
Proof. intros (x & X1 & X2 & X3 & X4) H. exists x. split; auto. split; [lia|auto]. Qed.
Lemma fred_drop (h h' : Prop) e c v : (h' -> h) -> fred h e c v -> fred h' e c v.
Proof. intros H (x & X1 & X2 & X3 & X4). exists x. split; auto. Qed.
Lemma frep_nonneg h e c B v : frep h e c B v -> 0 <= B.
Proof. intros (x & _ & H & _). lia. Qed.

Lemma of_Z_cong x y : (mz | x - y) -> of_Z m x = of_Z m y.
Proof. intros [q Hq]. replace x with (y + q * mz) by lia. apply of_Z_eq_iff. apply Z_mod_plus_full. Qed.
Lemma of_Z_zero x : of_Z m x = F0 -> (mz | x).
Proof. intros H. change F0 with (of_Z m 0) in H. apply of_Z_eq_iff in H. rewrite Z.mod_0_l in H by lia. apply Z.mod_divide; lia. Qed.
Lemma of_Z_zero' x : (mz | x) -> of_Z m x = F0.
Proof. intros H. change F0 with (of_Z m 0). apply of_Z_cong. now rewrite Z.sub_0_r. Qed.

Definition isk (c : crt) (b : nat) : Prop := length (c_limbs c) = k /\ c_bits c = b.

Section Ops.
Variables (L : list AV) (Pre : env -> Prop) (Hon : Prop).

Lemma f_add (a b : crt) ba bb : cpre L a -> cpre L b -> isk a ba -> isk b bb ->
  hcalc L Pre Hon (add_crt a b) (fun c => isk c (Nat.max ba bb + 1)) 
    (fun e c => forall h Ba Bb u v, frep h e a Ba u -> frep h e b Bb v -> frep h e c (Ba + Bb) (u + v)%F) ccells.
Proof.
  intros Ca Cb [La <-] [Lb <-].
  eapply h_post; [apply h_pure with (P' := fun c => c_val c = c_val a + c_val b); [apply (h_add_crt lb); auto; congruence|]| | |]; cbv beta.
  - intros s c s' E. unfold add_crt, bind, ret in E. destruct (add_assign _ _ s) as [[? s1]|]; [|discriminate]. destruct (add _ _ s1) as [[? ?]|]; [|discriminate]. now injection E as <- _.
  - intros c ((X1 & X2 & _) & _). split; congruence.
  - intros e c (_ & V) _ R h Ba Bb u v (x & X1 & X2 & X3 & X4) (y & Y1 & Y2 & Y3 & Y4). exists (x + y). split; [now apply R|]. split; [lia|].
    split; [now rewrite of_Z_add, X3, Y3|]. intros Hh. destruct (X4 Hh) as [? E1]. destruct (Y4 Hh) as [_ E2]. split; auto. now rewrite V, E1, E2.
  - intros c _. apply incl_appl, incl_refl.
Qed.
Lemma f_sub (a b : crt) ba bb : cpre L a -> cpre L b -> isk a ba -> isk b bb ->
  hcalc L Pre Hon (sub_crt a b) (fun c => isk c (Nat.max ba bb + 1)) 
    (fun e c => forall h Ba Bb u v, frep h e a Ba u -> frep h e b Bb v -> frep h e c (Ba + Bb) (u - v)%F) ccells.
Proof.
  intros Ca Cb [La <-] [Lb <-].
  eapply h_post; [apply (h_sub_crt lb); auto; congruence| | |]; cbv beta.
  - intros c (X1 & X2 & _). split; congruence.
  - intros e c (_ & _ & V) _ R h Ba Bb u v (x & X1 & X2 & X3 & X4) (y & Y1 & Y2 & Y3 & Y4). exists (x - y). split; [now apply R|]. split; [lia|].
    split; [now rewrite of_Z_sub, X3, Y3|]. intros Hh. destruct (X4 Hh) as [? E1]. destruct (Y4 Hh) as [_ E2]. split; auto. now rewrite V, E1, E2.
  - intros c _. apply incl_appl, incl_refl.
Qed.
Notation lg := (log2_ceil (Z.of_nat k)).
Lemma f_mul_nc (a b : crt) ba bb : cpre L a -> cpre L b -> isk a ba -> isk b bb ->
  hcalc L Pre Hon (fp_mul_no_carry ch a b) (fun c => isk c (lg + ba + bb)) 
    (fun e c => forall h Ba Bb u v, frep h e a Ba u -> frep h e b Bb v -> frep h e c (Ba * Bb) (u * v)%F) ccells.
Proof.
  intros Ca Cb [La <-] [Lb <-].
  eapply h_post; [apply (h_fp_mul_no_carry lb m Hp Hlb Hlb2 Hm ch n k HN HK L Pre Hon a b); auto| | |]; cbv beta.
  - intros c (X1 & X2 & _). split; congruence.
  - intros e c (_ & _ & V) _ R h Ba Bb u v (x & X1 & X2 & X3 & X4) (y & Y1 & Y2 & Y3 & Y4). exists (x * y). split; [now apply R|].
    split. { rewrite Z.abs_mul. apply Z.mul_le_mono_nonneg; auto using Z.abs_nonneg. }
    split; [now rewrite of_Z_mul, X3, Y3|]. intros Hh. destruct (X4 Hh) as [? E1]. destruct (Y4 Hh) as [_ E2]. split; auto. now rewrite V, E1, E2.
  - intros c _. apply incl_appl, incl_refl.
Qed.
Lemma f_smul (a : crt) ba s : cpre L a -> isk a ba -> - 2 ^ 63 < s < 2 ^ 63 ->
  hcalc L Pre Hon (scalar_mul_crt a s) (fun c => isk c (ba + log2_ceil (Z.abs s))) 
    (fun e c => forall h Ba u, frep h e a Ba u -> frep h e c (Ba * Z.abs s) (u * of_Z m s)%F) ccells.
Proof.
  intros Ca [La <-] Hs.
  eapply h_post; [apply (h_scalar_mul_crt lb L Pre Hon a s); auto| | |]; cbv beta.
  - intros c (X1 & X2 & _). split; congruence.
  - intros e c (_ & _ & V) _ R h Ba u (x & X1 & X2 & X3 & X4). exists (x * s). split; [now apply R|].
    split. { rewrite Z.abs_mul. apply Z.mul_le_mono_nonneg_r; auto using Z.abs_nonneg. }
    split; [now rewrite of_Z_mul, X3|]. intros Hh. destruct (X4 Hh) as [? E1]. split; auto. now rewrite V, E1.
  - intros c _. apply incl_appl, incl_refl.
Qed.
Lemma f_smul_add (a b : crt) ba bb s : cpre L a -> cpre L b -> isk a ba -> isk b bb -> - 2 ^ 63 < s < 2 ^ 63 ->
  hcalc L Pre Hon (scalar_mul_add_crt a b s) (fun c => isk c (Nat.max (ba + log2_ceil (Z.abs s)) bb + 1)) 
    (fun e c => forall h Ba Bb u v, frep h e a Ba u -> frep h e b Bb v -> frep h e c (Ba * Z.abs s + Bb) (u * of_Z m s + v)%F) ccells.
Proof.
  intros Ca Cb [La <-] [Lb <-] Hs.
  eapply h_post; [apply (h_scalar_mul_add_crt lb L Pre Hon a b s); auto; congruence| | |]; cbv beta.
  - intros c (X1 & X2 & _). split; congruence.
  - intros e c (_ & _ & V) _ R h Ba Bb u v (x & X1 & X2 & X3 & X4) (y & Y1 & Y2 & Y3 & Y4). exists (x * s + y). split; [now apply (R n)|].
    split. { pose proof (Z.abs_triangle (x * s) y). rewrite Z.abs_mul in *. pose proof (Z.mul_le_mono_nonneg_r _ _ (Z.abs s) (Z.abs_nonneg s) X2). lia. }
    split; [now rewrite of_Z_add, of_Z_mul, X3, Y3|]. intros Hh. destruct (X4 Hh) as [? E1]. destruct (Y4 Hh) as [_ E2]. split; auto. now rewrite V, E1, E2.
  - intros c _. apply incl_appl, incl_refl.
Qed.
Lemma f_addc (a : crt) ba (s : Fm) : cpre L a -> isk a ba ->
  hcalc L Pre Hon (fp_add_constant_no_carry m ch a s) (fun c => isk c (Nat.max ba n + 1)) 
    (fun e c => forall h Ba u, frep h e a Ba u -> frep h e c (Ba + M2) (u + s)%F) ccells.
Proof.
  intros Ca [La <-].
  eapply h_post; [apply (h_fp_add_constant_no_carry lb m Hp Hlb Hlb2 Hm ch n k HN HK L Pre Hon a s); auto| | |]; cbv beta.
  - intros c (X1 & X2 & _). split; congruence.
  - intros e c (_ & _ & V) _ R h Ba u (x & X1 & X2 & X3 & X4). exists (x + val s). split; [now apply R|].
    pose proof (val_bounds m s). pose proof m_le_M2. split; [lia|].
    split; [now rewrite of_Z_add, X3, of_Z_val|]. intros Hh. destruct (X4 Hh) as [? E1]. split; auto. now rewrite V, E1.
  - intros c _. apply incl_appl, incl_refl.
Qed.

Notation fit_mod := (fit_mod (p:=p) lb n k).
Notation fit_zero := (fit_zero (p:=p) lb n k).
Lemma f_carry (a : crt) ba : cpre L a -> isk a ba -> fit_mod ba ->
  (Hon -> Pre hval -> exists B v, frep True hval a B v /\ 8 * B < W) ->
  hcalc L Pre Hon (fp_carry_mod lb ch a) (fun c => isk c n)
    (fun e c => forall h B v, frep h e a B v -> 8 * B < W -> fred h e c v) ccells.
Proof.
  intros Ca [La <-] Hf HH.
  eapply h_post; [apply (h_fp_carry_mod lb m Hp Hlb Hlb2 Hm ch n k HN HK L Pre Hon a); auto| | |]; cbv beta.
  - intros Hh HP. destruct (HH Hh HP) as (B & v & (x & X1 & X2 & X3 & X4) & HB). destruct (X4 I) as [_ E]. rewrite E. split; auto. unfold fit_val. lia.
  - intros c (X1 & X2 & _). split; auto.
  - intros e c (Lc & Bc & V & D) _ R h B v (x & X1 & X2 & X3 & X4) HB. destruct (R x X1) as (z & Z1 & Z2 & Z3). { unfold fit_val. lia. }
    exists z. split; auto. split; auto. split; [rewrite <- X3; now apply of_Z_cong|].
    intros Hh. destruct (X4 Hh) as [-> E]. split; auto. pose proof (carry_hon_proper lb m Hlb Hlb2 Hm n k HK c (c_val a) z Lc D Z1) as E2.
    rewrite V, E2. split; auto. apply Z.mod_pos_bound. lia.
  - intros c _. apply incl_appl, incl_refl.
Qed.
Lemma f_check0 (a : crt) ba : cpre L a -> isk a ba -> fit_zero ba ->
  (Hon -> Pre hval -> exists B, frep True hval a B F0 /\ 8 * B < W) ->
  hcalc L Pre Hon (fp_check_carry_mod_to_zero lb ch a) (fun _ => True)
    (fun e _ => forall h B v, frep h e a B v -> 8 * B < W -> v = F0) (fun _ => []).
Proof.
  intros Ca [La <-] Hf HH.
  eapply h_post; [apply (h_fp_check_carry_mod_to_zero lb m Hp Hlb Hlb2 Hm ch n k HN HK L Pre Hon a); auto| | |]; cbv beta; auto.
  - intros Hh HP. destruct (HH Hh HP) as (B & (x & X1 & X2 & X3 & X4) & HB). destruct (X4 I) as [_ E]. rewrite E. split; auto. split; [unfold fit_val; lia|].
    apply Z.mod_divide; [lia|]. now apply of_Z_zero.
  - intros e c _ _ R h B v (x & X1 & X2 & X3 & X4) HB. rewrite <- X3. apply of_Z_zero', R; auto. unfold fit_val. lia.
  - intros c _. apply incl_appl, incl_refl.
Qed.
Lemma f_div_gen sg (a b : crt) ba bb : cpre L a -> cpre L b -> isk a ba -> isk b bb -> sg = 1 \/ sg = -1 ->
  fit_zero (Nat.max (lg + n + bb) ba + 1) -> (Hon -> prime mz) ->
  (Hon -> Pre hval -> exists Ba Bb u v, frep True hval a Ba u /\ frep True hval b Bb v /\ 8 * (M2 * Bb + Ba) < W /\ (u = F0 \/ v <> F0)) ->
  hcalc L Pre Hon (if sg =? 1 then fp_divide_unsafe lb m ch a b else fp_neg_divide_unsafe lb m ch a b) (fun c => isk c n)
    (fun e c => forall h Ba Bb u v, frep h e a Ba u -> frep h e b Bb v -> 8 * (M2 * Bb + Ba) < W -> (h -> u = F0 \/ v <> F0) ->
       exists w, fred h e c w /\ (w * v)%F = (of_Z m sg * u)%F) ccells.
Proof.
  intros Ca Cb [La Ba'] [Lb Bb'] Hsg Hf Pm HH.
  set (Hon' := Hon /\ (c_val a mod mz = 0 \/ c_val b mod mz <> 0)).
  assert (HN0 : forall u v Ba Bb, frep True hval a Ba u -> frep True hval b Bb v -> u = F0 \/ v <> F0 -> c_val a mod mz = 0 \/ c_val b mod mz <> 0).
  { intros u v Ba Bb (x & X1 & X2 & X3 & X4) (y & Y1 & Y2 & Y3 & Y4) Hd. destruct (X4 I) as [_ ->]. destruct (Y4 I) as [_ ->].
    destruct Hd as [Hd|Hd]; [left|right].
    - rewrite <- X3 in Hd. apply Z.mod_divide; [lia|]. now apply of_Z_zero.
    - intros E. apply Hd. rewrite <- Y3. apply of_Z_zero'. apply Z.mod_divide; lia. }
  assert (G : hcalc L Pre Hon' (if sg =? 1 then fp_divide_unsafe lb m ch a b else fp_neg_divide_unsafe lb m ch a b) (div_post m n k b (of_Z m (sg * c_val a))) (div_rel m n k a b sg) ccells).
  { assert (H3 : Hon' -> Pre hval -> crep n hval a (c_val a) /\ crep n hval b (c_val b) /\ div_fits (p:=p) m n k (c_val a) (c_val b)).
    { intros [Hh _] HP. destruct (HH Hh HP) as (Ba & Bb & u & v & (x & X1 & X2 & X3 & X4) & (y & Y1 & Y2 & Y3 & Y4) & HB & _).
      destruct (X4 I) as [_ E1]. destruct (Y4 I) as [_ E2]. rewrite E1, E2. split; auto. split; auto. unfold div_fits.
      pose proof (pow2_pos (bits mz)). assert (M2 * Z.abs y <= M2 * Bb) by (apply Z.mul_le_mono_nonneg_l; lia). lia. }
    rewrite <- Ba', <- Bb' in Hf.
    destruct Hsg as [-> | ->]; cbn [Z.eqb Pos.eqb].
    - replace (1 * c_val a) with (c_val a) by lia. apply (h_fp_divide_unsafe lb m Hp Hlb Hlb2 Hm ch n k HN HK L Pre Hon' a b); auto; unfold Hon'; tauto.
    - replace (of_Z m (-1 * c_val a)) with (- of_Z m (c_val a))%F. 2:{ rewrite <- of_Z_opp. f_equal. }
      apply (h_fp_neg_divide_unsafe lb m Hp Hlb Hlb2 Hm ch n k HN HK L Pre Hon' a b); auto; unfold Hon'; tauto. }
  eapply h_weaken; [exact G|apply incl_refl|auto| | | |]; cbv beta.
  - intros Hh HP. split; auto. destruct (HH Hh HP) as (Ba & Bb & u & v & FA & FB & _ & Hd). eauto.
  - intros c (X1 & X2 & _). split; auto.
  - intros e c (Lc & Bc & V & D) HP R h Ba Bb u v (x & X1 & X2 & X3 & X4) (y & Y1 & Y2 & Y3 & Y4) HB Hd.
    assert (DF : div_fits (p:=p) m n k x y). { unfold div_fits. pose proof (pow2_pos (bits mz)). assert (M2 * Z.abs y <= M2 * Bb) by (apply Z.mul_le_mono_nonneg_l; lia). lia. }
    destruct (R x y X1 Y1 DF) as (z & Z1 & Z2 & Z3). exists (of_Z m z). split.
    + exists z. split; auto. split; auto. split; auto. intros Hh. destruct (X4 Hh) as [E _]. rewrite E in *. split; auto.
      rewrite V. pose proof (val_bounds m (div_val m (of_Z m (sg * c_val a)) b)) as VB. pose proof m_le_M2. pose proof (mz_fits lb m Hlb Hlb2 Hm n k HK).
      rewrite (proper_digits_eq lb m Hlb Hlb2 n k hval c (val (div_val m (of_Z m (sg * c_val a)) b)) z); auto; try lia.
      destruct HK as (_ & _ & _ & HC & _). lia.
    + rewrite <- Y3, <- X3, <- !of_Z_mul. now apply of_Z_cong.
  - intros c _. apply incl_appl, incl_refl.
Qed.
End Ops.
End FpField.
