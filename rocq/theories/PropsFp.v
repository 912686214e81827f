(** Property theorems C49-C53 about FpChip (halo2-ecc/src/fields/{fp,mod}.rs): arithmetic in [F m] inside a circuit over [F p].
    Reading guide: [sound]/[comp] as in PropsGate.v, [crep]/[proper] as in BigSpec.v. *)
From Coq Require Import ZArith Znumtheory Lia List Bool Ring.
From Verif Require Import Field Spec Context ContextProofs Utils Logic Gate GateProofs ChainProofs IPProofs BitProofs PowProofs IPComp Derived Calc CalcH
  Range RangeProofs RangeProofs2 RangeProofs3 BigInt BigSpec BigNum BigPrims BigOps BigSel BigCmp BigSub BigCarry BigMod BigCrtNum BigCrt
  FpChip FpProofs FpProofs2 FpProofs3 FpField FpField2 FpField3 Bn254Primes PropsBigInt.
Import ListNotations.
Local Open Scope Z_scope.

Section FpSpec.
Context {p : positive} (m : positive) (n k : nat).
(** Under the cell values [e], the CRT integer [c] represents an integer of absolute value at most [B] whose class modulo [m] is [v]. *)
Definition over (e : env) (c : crt p) (B : Z) (v : F m) : Prop := exists x, crep n e c x /\ Z.abs x <= B /\ of_Z m x = v.
(** The limbs are [n]-bit digits of a number with at most as many bits as [m] (resp. less than [m]), whose class is [v]. *)
Definition carried (e : env) (c : crt p) (v : F m) : Prop := exists z, proper n e c z /\ z < 2 ^ Z.of_nat (bits (Z.pos m)) /\ of_Z m z = v.
Definition canonical (e : env) (c : crt p) (v : F m) : Prop := proper n e c (val v).
(** The honest prover's versions: every cell has a value and the BigInt kept beside the cells is the represented integer. *)
Definition hover (c : crt p) (B : Z) (v : F m) : Prop := Forall good (ccells c) /\ exists x, crep n hval c x /\ Z.abs x <= B /\ of_Z m x = v /\ c_val c = x.
Definition hcarried (c : crt p) (v : F m) : Prop := Forall good (ccells c) /\ isk k c n /\ proper n hval c (val v) /\ c_val c = val v.

Lemma over_frep e c B v : over e c B v -> frep m n False e c B v.
Proof. intros (x & A & A' & C). exists x. tauto. Qed.
Lemma carried_fred e c v : carried e c v -> fred m n False e c v.
Proof. intros (x & A & A' & C). exists x. tauto. Qed.
Lemma fred_carried h e c v : fred m n h e c v -> carried e c v.
Proof. intros (x & A & A' & C & _). exists x. tauto. Qed.
Lemma fcan_canonical (Hm : 1 < Z.pos m) h e c v : fcan m n h e c v -> canonical e c v.
Proof. intros (x & A & A' & C & _). pose proof (proper_bound _ _ _ _ A). unfold canonical. rewrite <- C, val_of_Z_small; auto. lia. Qed.
Lemma hover_frep c B v : hover c B v -> frep m n True hval c B v.
Proof. intros (_ & x & A & A' & C & D). exists x. auto. Qed.
Lemma hcarried_fred (H : Z.pos m < 2 ^ Z.of_nat (bits (Z.pos m))) c v : hcarried c v -> fred m n True hval c v.
Proof. intros (_ & _ & A & V). pose proof (val_bounds m v). exists (val v). split; auto. split; [lia|]. split; [apply of_Z_val|]. repeat split; auto. lia. Qed.
Lemma fred_hcarried c v : Forall good (ccells c) -> isk k c n -> fred m n True hval c v -> hcarried c v.
Proof. intros G K (z & A & B & C & D). destruct (D I) as (_ & D1 & D2). pose proof (proper_bound _ _ _ _ A).
  assert (val v = z) as E by (rewrite <- C; apply val_of_Z_small; lia). split; auto. split; auto. rewrite E. auto. Qed.
End FpSpec.

Section Fp.
Context (p m : positive) (lb : nat) (Hp : prime (Z.pos p)) (Hlb : (1 <= lb < 64)%nat) (Hlb2 : (2 * lb <= CAPACITY p)%nat) (Hm : prime (Z.pos m)).
(** the chip was built for [k] limbs of [n] bits; [fp_params] are the size conditions on [n], [k], [m], [p] (an instance is given at the end of this file) *)
Context (n k : nat) (ch : fpchip p) (HN : fpchip_new m n k = Some ch) (HK : fp_params (p:=p) lb m n k).
Notation crt := (crt p).
Notation over := (over (p:=p) m n).
Notation carried := (carried (p:=p) m n).
Notation canonical := (canonical (p:=p) m n).
Notation hover := (hover (p:=p) m n).
Notation hcarried := (hcarried (p:=p) m n k).
(** [limbs k c b]: [k] limbs of declared size [b] bits *)
Notation limbs c b := (isk k c b).
(** the bound below which the CRT representation determines the integer, and above which nothing is promised *)
Notation W := (2 ^ Z.of_nat (n * k + NUM_BITS p)).
Notation M2 := (2 ^ Z.of_nat (bits (Z.pos m))).
Notation fit_mod := (fit_mod (p:=p) lb n k).
Notation fit_zero := (fit_zero (p:=p) lb n k).
Notation lg := (log2_ceil (Z.of_nat k)).
Notation U := (fun _ _ => True).
Let Hm1 : 1 < Z.pos m. Proof. pose proof (prime_ge_2 _ Hm). lia. Qed.
Let HM : Z.pos m < M2. Proof. exact (m_le_M2 lb m Hlb Hlb2 Hm1). Qed.
Let T : env (p:=p) -> Prop := fun _ => True.

Lemma Forall_app2 {A} (Q : A -> Prop) l l' : Forall Q l -> Forall Q l' -> Forall Q (l ++ l'). Proof. intros. now apply Forall_app. Qed.
Ltac snd H := eapply sound_weaken; [apply (h_sound lb _ _ _ _ _ H)|cbv beta|cbv beta]; auto.
Ltac cmp H := eapply comp_weaken; [apply (h_comp lb _ _ _ _ _ H)|cbv beta|cbv beta|cbv beta]; auto.

(** ** C49 *)
Theorem C49_carry_mod_sound : forall (a : crt) (b : nat), limbs a b -> fit_mod b ->
  sound lb (fp_carry_mod lb ch a) (fun c => limbs c n) (fun sg c => forall B v, over (avs sg) a B v -> 8 * B < W -> carried (avs sg) c v).
Proof.
  intros a b Ka Hf. pose proof (f_carry lb m Hp Hlb Hlb2 Hm1 ch n k HN HK (ccells a) T False a b (incl_refl _) Ka Hf ltac:(tauto)) as H. snd H.
  intros sg c _ R B v HO HB. eapply fred_carried, (R False B v); auto. now apply over_frep.
Qed.
Theorem C49_carry_mod_complete : forall (a : crt) (b : nat) (B : Z) (v : F m), limbs a b -> fit_mod b -> hover a B v -> 8 * B < W ->
  comp lb (oks (ccells a)) (fp_carry_mod lb ch a) (fun c => hcarried c v) (fun rho c => oks (ccells c) rho).
Proof.
  intros a b B v Ka Hf HO HB. pose proof (hover_frep _ _ _ _ _ HO) as FO. destruct HO as [G _].
  pose proof (f_carry lb m Hp Hlb Hlb2 Hm1 ch n k HN HK (ccells a) T True a b (incl_refl _) Ka Hf ltac:(eauto)) as H. cmp H.
  intros c (Kc & Gc & R). apply fred_hcarried; auto. apply (R True B v); auto.
Qed.
(** ** C50 *)
Theorem C50_check_carry_mod_to_zero_sound : forall (a : crt) (b : nat), limbs a b -> fit_zero b ->
  sound lb (fp_check_carry_mod_to_zero lb ch a) (fun _ => True) (fun sg _ => forall B v, over (avs sg) a B v -> 8 * B < W -> v = F0).
Proof.
  intros a b Ka Hf. pose proof (f_check0 lb m Hp Hlb Hlb2 Hm1 ch n k HN HK (ccells a) T False a b (incl_refl _) Ka Hf ltac:(tauto)) as H. snd H.
  intros sg c _ R B v HO HB. apply (R False B v); auto. now apply over_frep.
Qed.
Theorem C50_check_carry_mod_to_zero_complete : forall (a : crt) (b : nat) (B : Z), limbs a b -> fit_zero b -> hover a B F0 -> 8 * B < W ->
  comp lb (oks (ccells a)) (fp_check_carry_mod_to_zero lb ch a) (fun _ => True) U.
Proof.
  intros a b B Ka Hf HO HB. pose proof (hover_frep _ _ _ _ _ HO) as FO. destruct HO as [G _].
  pose proof (f_check0 lb m Hp Hlb Hlb2 Hm1 ch n k HN HK (ccells a) T True a b (incl_refl _) Ka Hf ltac:(eauto)) as H. cmp H.
Qed.

(** ** C51: loading and range checks *)
Theorem C51_load_sound : forall a : F m,
  sound lb (fp_load_private lb m ch a) (fun c => limbs c n) (fun sg c => exists v, carried (avs sg) c v) /\
  sound lb (fp_load_private_reduced lb m ch a) (fun c => limbs c n) (fun sg c => exists v, canonical (avs sg) c v) /\
  sound lb (fp_load_constant m ch a) (fun c => limbs c n) (fun sg c => canonical (avs sg) c a).
Proof.
  intros a. split; [|split].
  - pose proof (f_load_private lb m Hp Hlb Hlb2 Hm1 ch n k HN HK [] T False a) as H. snd H.
    intros sg c _ (v & R & _). exists v. eapply fred_carried, (R False). tauto.
  - pose proof (h_fp_load_private_reduced lb m Hp Hlb Hlb2 Hm1 ch n k HN HK [] T False a) as H. snd H.
    + intros c (X1 & X2 & _). now split.
    + intros sg c _ (z & A & B). pose proof (proper_bound _ _ _ _ A). exists (of_Z m z). unfold canonical. rewrite val_of_Z_small; auto. lia.
  - pose proof (h_fp_load_constant lb m Hp Hlb Hlb2 Hm1 ch n k HN HK [] T False a) as H. snd H.
    intros c (X1 & X2 & _). now split.
Qed.
Theorem C51_load_complete : forall a : F m,
  comp lb (fun _ => True) (fp_load_private lb m ch a) (fun c => hcarried c a) (fun rho c => oks (ccells c) rho) /\
  comp lb (fun _ => True) (fp_load_private_reduced lb m ch a) (fun c => hcarried c a) (fun rho c => oks (ccells c) rho) /\
  comp lb (fun _ => True) (fp_load_constant m ch a) (fun c => hcarried c a) (fun rho c => oks (ccells c) rho).
Proof.
  intros a. split; [|split].
  - pose proof (f_load_private lb m Hp Hlb Hlb2 Hm1 ch n k HN HK [] T True a) as H. cmp H.
    intros c (Kc & G & v & R & E). specialize (E eq_refl). subst v. apply fred_hcarried; auto.
  - pose proof (h_fp_load_private_reduced lb m Hp Hlb Hlb2 Hm1 ch n k HN HK [] T True a) as H. cmp H.
    intros c ((X1 & X2 & X3 & X4) & G & z & A & B). split; auto. split; [now split|]. split; auto.
    pose proof (val_bounds m a). pose proof (mz_fits lb m Hlb Hlb2 Hm1 n k HK).
    rewrite <- (proper_digits_eq lb m Hlb Hlb2 n k hval c (val a) z); auto; [|lia]. destruct HK as (_ & _ & _ & HC & _). lia.
  - pose proof (h_fp_load_constant lb m Hp Hlb Hlb2 Hm1 ch n k HN HK [] T True a) as H. cmp H.
    intros c ((X1 & X2 & X3) & G & R). split; auto. split; [now split|auto].
Qed.
(** any CRT integer whose native part matches its limbs: afterwards the limbs are proper and the number has at most [bits] bits *)
Theorem C51_range_check : forall (a : crt) (bits : nat),
  sound lb (fp_range_check lb ch a bits) (fun _ => True)
    (fun sg _ => let x := undigits n (map (fun l => val (avs sg l)) (c_limbs a)) in
       x < 2 ^ Z.of_nat bits /\ (c_bits a = n -> avs sg (c_nat a) = of_Z p x -> proper n (avs sg) a x)) /\
  (forall v : F m, hcarried a v -> val v < 2 ^ Z.of_nat bits -> comp lb (oks (ccells a)) (fp_range_check lb ch a bits) (fun _ => True) U).
Proof.
  intros a bts. split.
  - pose proof (h_fp_range_check lb m Hp Hlb Hlb2 Hm1 ch n k HN HK (ccells a) T False a bts (incl_refl _) ltac:(tauto)) as H. snd H.
    intros sg _ _ [R1 R2] x. split; [exact R2|]. intros Hb He. split; auto.
  - intros v (G & _ & A & V) Hv.
    pose proof (h_fp_range_check lb m Hp Hlb Hlb2 Hm1 ch n k HN HK (ccells a) T True a bts (incl_refl _) ltac:(eauto)) as H. cmp H.
Qed.
Theorem C51_enforce_less_than : forall a : crt, limbs a n ->
  sound lb (fp_enforce_less_than lb ch a) (fun c => c = a) (fun sg c => forall v, carried (avs sg) a v -> canonical (avs sg) a v) /\
  (forall v, hcarried a v -> comp lb (oks (ccells a)) (fp_enforce_less_than lb ch a) (fun c => c = a) U).
Proof.
  intros a Ka. split.
  - pose proof (f_enforce_lt lb m Hp Hlb Hlb2 Hm1 ch n k HN HK (ccells a) T False a n (incl_refl _) Ka ltac:(tauto)) as H. snd H.
    intros sg c _ R v HC. eapply fcan_canonical; auto. apply (R False v). now apply carried_fred.
  - intros v HC. pose proof (hcarried_fred _ _ _ HM _ _ HC) as F. destruct HC as [G _].
    pose proof (f_enforce_lt lb m Hp Hlb Hlb2 Hm1 ch n k HN HK (ccells a) T True a n (incl_refl _) Ka ltac:(eauto)) as H. cmp H. tauto.
Qed.
Theorem C51_is_less_than_p_and_parity : forall a : crt, limbs a n ->
  sound lb (is_less_than_p lb ch a) (fun _ => True) (fun sg o => forall x, proper n (avs sg) a x -> avs sg o = if x <? Z.pos m then F1 else F0) /\
  sound lb (fp_is_even lb ch a) (fun _ => True)
    (fun sg o => forall v, carried (avs sg) a v -> canonical (avs sg) a v /\ avs sg o = if Z.even (val v) then F1 else F0) /\
  (forall v, hcarried a v ->
     comp lb (oks (ccells a)) (is_less_than_p lb ch a) (fun o => good o /\ hval o = F1) (fun rho o => av_ok rho o) /\
     comp lb (oks (ccells a)) (fp_is_even lb ch a) (fun o => good o /\ hval o = if Z.even (val v) then F1 else F0) (fun rho o => av_ok rho o)).
Proof.
  intros a Ka. destruct (Ka) as [La Ba]. split; [|split].
  - pose proof (h_is_less_than_p lb m Hp Hlb Hlb2 Hm1 ch n k HN HK (ccells a) T False a (incl_refl _) ltac:(auto) ltac:(tauto)) as H. snd H. 
  - pose proof (h_fp_is_even lb m Hp Hlb Hlb2 Hm1 ch n k HN HK (ccells a) T False a (incl_refl _) La ltac:(tauto)) as H. snd H.
    intros sg o _ R v (z & A & B & C). destruct (R z A) as [Hz E]. pose proof (proper_bound _ _ _ _ A).
    assert (val v = z) as Ev by (rewrite <- C; apply val_of_Z_small; lia). unfold canonical. rewrite Ev. split; auto.
  - intros v (G & _ & A & V). pose proof (val_bounds m v) as VB. split.
    + pose proof (h_is_less_than_p lb m Hp Hlb Hlb2 Hm1 ch n k HN HK (ccells a) T True a (incl_refl _) ltac:(auto) ltac:(eauto)) as H. cmp H.
      * intros o (_ & Go & R). split; [now inversion Go|]. rewrite (R _ A). destruct (Z.ltb_spec (val v) (Z.pos m)); [reflexivity|lia].
      * intros rho o _ _ K. now inversion K.
    + pose proof (h_fp_is_even lb m Hp Hlb Hlb2 Hm1 ch n k HN HK (ccells a) T True a (incl_refl _) La ltac:(intros _ _; exists (val v); split; [exact A|lia])) as H. cmp H.
      * intros o (_ & Go & R). split; [now inversion Go|]. destruct (R _ A) as [_ ->]. now destruct (Z.even (val v)).
      * intros rho o _ _ K. now inversion K.
Qed.

(** ** C52: tests, negation, selection *)
Theorem C52_tests_sound : forall a b : crt, limbs a n -> limbs b n ->
  sound lb (fp_is_zero lb ch a) (fun _ => True)
    (fun sg o => forall u, carried (avs sg) a u -> canonical (avs sg) a u /\ avs sg o = if Fis0 u then F1 else F0) /\
  sound lb (fp_is_equal lb ch a b) (fun _ => True)
    (fun sg o => forall u v, carried (avs sg) a u -> carried (avs sg) b v -> canonical (avs sg) a u /\ canonical (avs sg) b v /\ avs sg o = if Feqb u v then F1 else F0) /\
  sound lb (fp_assert_equal lb ch a b) (fun _ => True)
    (fun sg _ => forall u v, carried (avs sg) a u -> carried (avs sg) b v -> u = v /\ canonical (avs sg) a u /\ canonical (avs sg) b v) /\
  (** the two unchecked tests are exact when the caller guarantees canonical inputs *)
  sound lb (fp_is_soft_zero a) (fun _ => True) (fun sg o => forall u, canonical (avs sg) a u -> avs sg o = if Fis0 u then F1 else F0) /\
  sound lb (fp_is_equal_unenforced a b) (fun _ => True) (fun sg o => forall u v, canonical (avs sg) a u -> canonical (avs sg) b v -> avs sg o = if Feqb u v then F1 else F0) /\
  (** 1 exactly for a non-zero number below [m] *)
  sound lb (fp_is_soft_nonzero lb ch a) (fun _ => True) (fun sg o => forall x, proper n (avs sg) a x -> avs sg o = if negb (x =? 0) && (x <? Z.pos m) then F1 else F0).
Proof.
  intros a b Ka Kb. destruct (Ka) as [La Ba]. destruct (Kb) as [Lb Bb].
  pose proof (cpre_l p a b) as Ca. pose proof (cpre_r p a b) as Cb.
  assert (CF : forall e c v, canonical e c v -> fcan m n False e c v).
  { intros e c v H. pose proof (val_bounds m v). exists (val v). split; auto. split; [lia|]. split; [apply of_Z_val|tauto]. }
  split; [|split; [|split; [|split; [|split]]]].
  - pose proof (f_is_zero lb m Hp Hlb Hlb2 Hm1 ch n k HN HK (ccells a) T False a (incl_refl _) Ka ltac:(tauto) ltac:(tauto)) as H. snd H.
    intros sg o _ R u Hu. destruct (R False u) as [X Y]; [now apply carried_fred|]. split; [eapply fcan_canonical; eauto|]. rewrite Y. now destruct (Fis0 u).
  - pose proof (f_is_equal lb m Hp Hlb Hlb2 Hm1 ch n k HN HK (ccells a ++ ccells b) T False a b n n Ca Cb Ka Kb ltac:(tauto)) as H. snd H.
    intros sg o _ R u v Hu Hv. destruct (R False u v) as (X & Y & Z0); [now apply carried_fred|now apply carried_fred|].
    split; [eapply fcan_canonical; eauto|]. split; [eapply fcan_canonical; eauto|]. rewrite Z0. now destruct (Feqb u v).
  - pose proof (f_assert_equal lb m Hp Hlb Hlb2 Hm1 ch n k HN HK (ccells a ++ ccells b) T False a b n n Ca Cb Ka Kb ltac:(tauto)) as H. snd H.
    intros sg o _ R u v Hu Hv. destruct (R False u v) as (X & Y & Z0); [now apply carried_fred|now apply carried_fred|].
    split; auto. split; eapply fcan_canonical; eauto.
  - pose proof (f_is_soft_zero lb m Hp Hlb Hlb2 n k HK (ccells a) T False a (incl_refl _) Ka ltac:(tauto)) as H. snd H.
    intros sg o _ R u Hu. rewrite (R False u) by auto. now destruct (Fis0 u).
  - pose proof (f_is_equal_unenforced lb m Hp Hlb Hlb2 n k HK (ccells a ++ ccells b) T False a b n n Ca Cb Ka Kb) as H. snd H.
    intros sg o _ R u v Hu Hv. rewrite (R False u v) by auto. now destruct (Feqb u v).
  - pose proof (h_fp_is_soft_nonzero lb m Hp Hlb Hlb2 Hm1 ch n k HN HK (ccells a) T False a (incl_refl _) ltac:(tauto) ltac:(tauto)) as H. snd H.
Qed.
Theorem C52_tests_complete : forall (a b : crt) (u v : F m), limbs a n -> limbs b n -> zcap (p:=p) n k -> hcarried a u -> hcarried b v ->
  comp lb (oks (ccells a)) (fp_is_zero lb ch a) (fun o => good o /\ hval o = if Fis0 u then F1 else F0) (fun rho o => av_ok rho o) /\
  comp lb (oks (ccells a ++ ccells b)) (fp_is_equal lb ch a b) (fun o => good o /\ hval o = if Feqb u v then F1 else F0) (fun rho o => av_ok rho o) /\
  (u = v -> comp lb (oks (ccells a ++ ccells b)) (fp_assert_equal lb ch a b) (fun _ => True) U).
Proof.
  intros a b u v Ka Kb HZ Hu Hv. pose proof (hcarried_fred _ _ _ HM _ _ Hu) as Fu. pose proof (hcarried_fred _ _ _ HM _ _ Hv) as Fv.
  destruct Hu as [Ga _]. destruct Hv as [Gb _]. pose proof (cpre_l p a b) as Ca. pose proof (cpre_r p a b) as Cb. split; [|split].
  - pose proof (f_is_zero lb m Hp Hlb Hlb2 Hm1 ch n k HN HK (ccells a) T True a (incl_refl _) Ka ltac:(tauto) ltac:(eauto)) as H. cmp H.
    + intros o (_ & Go & R). split; [now inversion Go|]. destruct (R True u Fu) as [_ ->]. now destruct (Fis0 u).
    + intros rho o _ _ K. now inversion K.
  - pose proof (f_is_equal lb m Hp Hlb Hlb2 Hm1 ch n k HN HK (ccells a ++ ccells b) T True a b n n Ca Cb Ka Kb ltac:(eauto)) as H. cmp H.
    + now apply Forall_app2.
    + intros o (_ & Go & R). split; [now inversion Go|]. destruct (R True u v Fu Fv) as (_ & _ & ->). now destruct (Feqb u v).
    + intros rho o _ _ K. now inversion K.
  - intros <-. pose proof (f_assert_equal lb m Hp Hlb Hlb2 Hm1 ch n k HN HK (ccells a ++ ccells b) T True a b n n Ca Cb Ka Kb ltac:(eauto)) as H. cmp H.
    now apply Forall_app2.
Qed.
Theorem C52_negate : forall a : crt, limbs a n ->
  sound lb (fp_negate lb ch a) (fun c => limbs c n) (fun sg c => forall u, carried (avs sg) a u -> carried (avs sg) c (- u)%F) /\
  (forall u, zcap (p:=p) n k -> hcarried a u -> comp lb (oks (ccells a)) (fp_negate lb ch a) (fun c => hcarried c (- u)%F) (fun rho c => oks (ccells c) rho)).
Proof.
  intros a Ka. split.
  - pose proof (f_negate lb m Hp Hlb Hlb2 Hm1 ch n k HN HK (ccells a) T False a (incl_refl _) Ka ltac:(tauto) ltac:(tauto)) as H. snd H.
    intros sg c _ R u Hu. eapply fred_carried, (R False u). now apply carried_fred.
  - intros u HZ Hu. pose proof (hcarried_fred _ _ _ HM _ _ Hu) as Fu. destruct Hu as [Ga _].
    pose proof (f_negate lb m Hp Hlb Hlb2 Hm1 ch n k HN HK (ccells a) T True a (incl_refl _) Ka ltac:(tauto) ltac:(eauto)) as H. cmp H.
    intros c (Kc & Gc & R). apply fred_hcarried; auto.
Qed.
Theorem C52_select : forall (a b : crt) (sel : AV p), limbs a n -> limbs b n ->
  sound lb (fp_select a b sel) (fun c => limbs c n)
    (fun sg c => forall u v, carried (avs sg) a u -> carried (avs sg) b v ->
       (avs sg sel = F1 -> carried (avs sg) c u) /\ (avs sg sel = F0 -> carried (avs sg) c v)) /\
  (forall u v (s : bool), hcarried a u -> hcarried b v -> hv sel (fbool s) ->
     comp lb (oks (sel :: ccells a ++ ccells b)) (fp_select a b sel) (fun c => hcarried c (if s then u else v)) (fun rho c => oks (ccells c) rho)).
Proof.
  intros a b sel Ka Kb. 
  assert (Ca : cpre (sel :: ccells a ++ ccells b) a) by (apply incl_tl, incl_appl, incl_refl).
  assert (Cb : cpre (sel :: ccells a ++ ccells b) b) by (apply incl_tl, incl_appr, incl_refl).
  pose proof (fun Hon => f_select lb m Hp n k (sel :: ccells a ++ ccells b) T Hon a b sel Ca Cb ltac:(now left) Ka Kb) as H. split.
  - snd (H False). intros sg c _ R u v Hu Hv. split; intros Es; eapply fred_carried.
    + apply (R False u v true); auto using carried_fred.
    + apply (R False u v false); auto using carried_fred.
  - intros u v s Hu Hv Hs. pose proof (hcarried_fred _ _ _ HM _ _ Hu) as Fu. pose proof (hcarried_fred _ _ _ HM _ _ Hv) as Fv.
    destruct Hu as [Ga _]. destruct Hv as [Gb _]. cmp (H True).
    + constructor; [eauto using hv_good|now apply Forall_app2].
    + intros c (Kc & Gc & R). apply fred_hcarried; auto. apply (R True u v s); eauto using hv_hval.
Qed.

(** ** C53: multiplication and division *)
Theorem C53_mul_sound : forall (a b : crt) (ba bb : nat), limbs a ba -> limbs b bb -> fit_mod (lg + ba + bb) ->
  sound lb (fp_mul lb ch a b) (fun c => limbs c n)
    (fun sg c => forall Ba Bb u v, over (avs sg) a Ba u -> over (avs sg) b Bb v -> 8 * (Ba * Bb) < W -> carried (avs sg) c (u * v)%F).
Proof.
  intros a b ba bb Ka Kb Hf.
  pose proof (f_mul lb m Hp Hlb Hlb2 Hm1 ch n k HN HK (ccells a ++ ccells b) T False a b ba bb (cpre_l p a b) (cpre_r p a b) Ka Kb Hf ltac:(tauto)) as H. snd H.
  intros sg c _ R Ba Bb u v Hu Hv HB. eapply fred_carried, (R False Ba Bb u v); auto using over_frep.
Qed.
Theorem C53_mul_complete : forall (a b : crt) (ba bb : nat) (Ba Bb : Z) (u v : F m), limbs a ba -> limbs b bb -> fit_mod (lg + ba + bb) ->
  hover a Ba u -> hover b Bb v -> 8 * (Ba * Bb) < W ->
  comp lb (oks (ccells a ++ ccells b)) (fp_mul lb ch a b) (fun c => hcarried c (u * v)%F) (fun rho c => oks (ccells c) rho).
Proof.
  intros a b ba bb Ba Bb u v Ka Kb Hf Hu Hv HB. pose proof (hover_frep _ _ _ _ _ Hu) as Fu. pose proof (hover_frep _ _ _ _ _ Hv) as Fv. destruct Hu as [Ga _]. destruct Hv as [Gb _].
  pose proof (f_mul lb m Hp Hlb Hlb2 Hm1 ch n k HN HK (ccells a ++ ccells b) T True a b ba bb (cpre_l p a b) (cpre_r p a b) Ka Kb Hf ltac:(eauto 10)) as H. cmp H.
  - now apply Forall_app2.
  - intros c (Kc & Gc & R). apply fred_hcarried; auto. apply (R True Ba Bb u v); auto.
Qed.
Theorem C53_divide_unsafe_sound : forall (a b : crt) (ba bb : nat), limbs a ba -> limbs b bb -> fit_zero (Nat.max (lg + n + bb) ba + 1) ->
  sound lb (fp_divide_unsafe lb m ch a b) (fun c => limbs c n)
    (fun sg c => forall Ba Bb u v, over (avs sg) a Ba u -> over (avs sg) b Bb v -> 8 * (M2 * Bb + Ba) < W ->
       exists w, carried (avs sg) c w /\ (w * v)%F = u /\ (v <> F0 -> w = (u * Finv v)%F)) /\
  sound lb (fp_neg_divide_unsafe lb m ch a b) (fun c => limbs c n)
    (fun sg c => forall Ba Bb u v, over (avs sg) a Ba u -> over (avs sg) b Bb v -> 8 * (M2 * Bb + Ba) < W ->
       exists w, carried (avs sg) c w /\ (w * v)%F = (- u)%F /\ (v <> F0 -> w = (- u * Finv v)%F)).
Proof.
  Add Ring Fringm : (F_ring m) (morphism (F_morph m), constants [Fcst]).
  intros a b ba bb Ka Kb Hf.
  assert (DV : forall w v u : F m, (w * v)%F = u -> v <> F0 -> w = (u * Finv v)%F).
  { intros w v u <- Hv. pose proof (Finv_l _ v Hm Hv) as E. transitivity (w * (Finv v * v))%F; [rewrite E; ring|ring]. }
  split.
  - pose proof (f_divide_unsafe lb m Hp Hlb Hlb2 Hm1 ch n k HN HK (ccells a ++ ccells b) T False a b ba bb (cpre_l p a b) (cpre_r p a b) Ka Kb Hf ltac:(tauto) ltac:(tauto)) as H. snd H.
    intros sg c _ R Ba Bb u v Hu Hv HB. destruct (R False Ba Bb u v) as (w & W1 & W2); auto using over_frep; try tauto. exists w. split; [eapply fred_carried; eauto|]. split; auto.
  - pose proof (f_neg_divide_unsafe lb m Hp Hlb Hlb2 Hm1 ch n k HN HK (ccells a ++ ccells b) T False a b ba bb (cpre_l p a b) (cpre_r p a b) Ka Kb Hf ltac:(tauto) ltac:(tauto)) as H. snd H.
    intros sg c _ R Ba Bb u v Hu Hv HB. destruct (R False Ba Bb u v) as (w & W1 & W2); auto using over_frep; try tauto. exists w. split; [eapply fred_carried; eauto|]. split; auto.
Qed.
Theorem C53_divide_unsafe_complete : forall (a b : crt) (ba bb : nat) (Ba Bb : Z) (u v : F m), limbs a ba -> limbs b bb -> fit_zero (Nat.max (lg + n + bb) ba + 1) ->
  hover a Ba u -> hover b Bb v -> 8 * (M2 * Bb + Ba) < W -> v <> F0 ->
  comp lb (oks (ccells a ++ ccells b)) (fp_divide_unsafe lb m ch a b) (fun c => hcarried c (u * Finv v)%F) (fun rho c => oks (ccells c) rho) /\
  comp lb (oks (ccells a ++ ccells b)) (fp_neg_divide_unsafe lb m ch a b) (fun c => hcarried c (- u * Finv v)%F) (fun rho c => oks (ccells c) rho).
Proof.
  intros a b ba bb Ba Bb u v Ka Kb Hf Hu Hv HB Hne. pose proof (hover_frep _ _ _ _ _ Hu) as Fu. pose proof (hover_frep _ _ _ _ _ Hv) as Fv. destruct Hu as [Ga _]. destruct Hv as [Gb _].
  assert (DV : forall w v u : F m, (w * v)%F = u -> v <> F0 -> w = (u * Finv v)%F).
  { intros w v' u' <- Hv. pose proof (Finv_l _ v' Hm Hv) as E. transitivity (w * (Finv v' * v'))%F; [rewrite E; ring|ring]. }
  split.
  - pose proof (f_divide_unsafe lb m Hp Hlb Hlb2 Hm1 ch n k HN HK (ccells a ++ ccells b) T True a b ba bb (cpre_l p a b) (cpre_r p a b) Ka Kb Hf ltac:(auto) ltac:(intros; exists Ba, Bb, u, v; auto)) as H. cmp H.
    + now apply Forall_app2.
    + intros c (Kc & Gc & R). apply fred_hcarried; auto. destruct (R True Ba Bb u v) as (w & W1 & W2); auto. now rewrite <- (DV w v u W2 Hne).
  - pose proof (f_neg_divide_unsafe lb m Hp Hlb Hlb2 Hm1 ch n k HN HK (ccells a ++ ccells b) T True a b ba bb (cpre_l p a b) (cpre_r p a b) Ka Kb Hf ltac:(auto) ltac:(intros; exists Ba, Bb, u, v; auto)) as H. cmp H.
    + now apply Forall_app2.
    + intros c (Kc & Gc & R). apply fred_hcarried; auto. destruct (R True Ba Bb u v) as (w & W1 & W2); auto. now rewrite <- (DV w v (- u)%F W2 Hne).
Qed.
Theorem C53_divide_sound : forall (a b : crt) (ba : nat), limbs a ba -> limbs b n -> fit_zero (Nat.max (lg + n + n) ba + 1) ->
  sound lb (fp_divide lb m ch a b) (fun c => limbs c n)
    (fun sg c => forall Ba u v, over (avs sg) a Ba u -> carried (avs sg) b v -> 8 * (M2 * M2 + Ba) < W ->
       v <> F0 /\ canonical (avs sg) b v /\ carried (avs sg) c (u * Finv v)%F) /\
  sound lb (fp_neg_divide lb m ch a b) (fun c => limbs c n)
    (fun sg c => forall Ba u v, over (avs sg) a Ba u -> carried (avs sg) b v -> 8 * (M2 * M2 + Ba) < W ->
       v <> F0 /\ canonical (avs sg) b v /\ carried (avs sg) c (- u * Finv v)%F).
Proof.
  intros a b ba Ka Kb Hf.
  assert (DV : forall w v u : F m, (w * v)%F = u -> v <> F0 -> w = (u * Finv v)%F).
  { intros w v u <- Hv. pose proof (Finv_l _ v Hm Hv) as E. transitivity (w * (Finv v * v))%F; [rewrite E; ring|ring]. }
  split.
  - pose proof (f_divide lb m Hp Hlb Hlb2 Hm1 ch n k HN HK (ccells a ++ ccells b) T False a b ba (cpre_l p a b) (cpre_r p a b) Ka Kb Hf ltac:(tauto) ltac:(tauto) ltac:(tauto)) as H. snd H.
    intros sg c _ R Ba u v Hu Hv HB. destruct (R False Ba u v) as (V1 & V2 & w & W1 & W2); auto using over_frep, carried_fred.
    split; auto. split; [eapply fcan_canonical; eauto|]. rewrite <- (DV w v u W2 V1). eapply fred_carried; eauto.
  - pose proof (f_neg_divide lb m Hp Hlb Hlb2 Hm1 ch n k HN HK (ccells a ++ ccells b) T False a b ba (cpre_l p a b) (cpre_r p a b) Ka Kb Hf ltac:(tauto) ltac:(tauto) ltac:(tauto)) as H. snd H.
    intros sg c _ R Ba u v Hu Hv HB. destruct (R False Ba u v) as (V1 & V2 & w & W1 & W2); auto using over_frep, carried_fred.
    split; auto. split; [eapply fcan_canonical; eauto|]. rewrite <- (DV w v (- u)%F W2 V1). eapply fred_carried; eauto.
Qed.
Theorem C53_divide_complete : forall (a b : crt) (ba : nat) (Ba : Z) (u v : F m), limbs a ba -> limbs b n -> fit_zero (Nat.max (lg + n + n) ba + 1) -> zcap (p:=p) n k ->
  hover a Ba u -> hcarried b v -> 8 * (M2 * M2 + Ba) < W -> v <> F0 ->
  comp lb (oks (ccells a ++ ccells b)) (fp_divide lb m ch a b) (fun c => hcarried c (u * Finv v)%F) (fun rho c => oks (ccells c) rho) /\
  comp lb (oks (ccells a ++ ccells b)) (fp_neg_divide lb m ch a b) (fun c => hcarried c (- u * Finv v)%F) (fun rho c => oks (ccells c) rho).
Proof.
  intros a b ba Ba u v Ka Kb Hf HZ Hu Hv HB Hne. pose proof (hover_frep _ _ _ _ _ Hu) as Fu. pose proof (hcarried_fred _ _ _ HM _ _ Hv) as Fv. destruct Hu as [Ga _]. destruct Hv as [Gb _].
  assert (DV : forall w v u : F m, (w * v)%F = u -> v <> F0 -> w = (u * Finv v)%F).
  { intros w v' u' <- Hv. pose proof (Finv_l _ v' Hm Hv) as E. transitivity (w * (Finv v' * v'))%F; [rewrite E; ring|ring]. }
  split.
  - pose proof (f_divide lb m Hp Hlb Hlb2 Hm1 ch n k HN HK (ccells a ++ ccells b) T True a b ba (cpre_l p a b) (cpre_r p a b) Ka Kb Hf ltac:(auto) ltac:(auto) ltac:(intros; exists Ba, u, v; auto)) as H. cmp H.
    + now apply Forall_app2.
    + intros c (Kc & Gc & R). apply fred_hcarried; auto. destruct (R True Ba u v) as (_ & _ & w & W1 & W2); auto. now rewrite <- (DV w v u W2 Hne).
  - pose proof (f_neg_divide lb m Hp Hlb Hlb2 Hm1 ch n k HN HK (ccells a ++ ccells b) T True a b ba (cpre_l p a b) (cpre_r p a b) Ka Kb Hf ltac:(auto) ltac:(auto) ltac:(intros; exists Ba, u, v; auto)) as H. cmp H.
    + now apply Forall_app2.
    + intros c (Kc & Gc & R). apply fred_hcarried; auto. destruct (R True Ba u v) as (_ & _ & w & W1 & W2); auto. now rewrite <- (DV w v (- u)%F W2 Hne).
Qed.
(** ** C52: selection by a one-hot indicator *)
Theorem C52_select_by_indicator : forall (a : list crt) (coeffs : list (AV p)), a <> [] -> length a = length coeffs -> Forall (fun c => limbs c n) a ->
  sound lb (fp_select_by_indicator ch a coeffs) (fun c => limbs c n)
    (fun sg c => forall j aj v, (forall i y, nth_error coeffs i = Some y -> avs sg y = if Nat.eqb i j then F1 else F0) -> nth_error a j = Some aj ->
       carried (avs sg) aj v -> carried (avs sg) c v) /\
  (forall j aj v, Forall (fun c => Forall good (ccells c)) a -> (forall i y, nth_error coeffs i = Some y -> hv y (if Nat.eqb i j then F1 else F0)) -> nth_error a j = Some aj ->
     hcarried aj v -> comp lb (oks (concat (map ccells a) ++ coeffs)) (fp_select_by_indicator ch a coeffs) (fun c => hcarried c v) (fun rho c => oks (ccells c) rho)).
Proof.
  intros a coeffs Ha HL HKs.
  assert (Hcp : Forall (cpre (concat (map ccells a) ++ coeffs)) a).
  { apply Forall_forall. intros c Hc x Hx. apply in_or_app. left. apply in_concat. exists (ccells c). split; [now apply in_map|auto]. }
  assert (OH : forall (e : env (p:=p)) j aj, (forall i y, nth_error coeffs i = Some y -> e y = if Nat.eqb i j then F1 else F0) -> nth_error a j = Some aj -> onehot_at j (map e coeffs)).
  { intros e j aj He Haj. assert (j < length a)%nat by (apply nth_error_Some; congruence). split; [rewrite map_length; lia|]. intros i Hi. rewrite map_length in Hi.
    apply nth_error_nth. rewrite nth_error_map. destruct (nth_error coeffs i) as [y|] eqn:Ey; [|apply nth_error_None in Ey; lia]. cbn [option_map]. f_equal. rewrite (He i y Ey). now destruct (Nat.eqb i j). }
  split.
  - pose proof (f_sbi lb m Hp Hlb Hlb2 Hm1 ch n k HN (concat (map ccells a) ++ coeffs) T False a coeffs Ha Hcp ltac:(apply incl_appr, incl_refl) HL HKs ltac:(tauto)) as H. snd H.
    intros sg c _ R j aj v Hc Haj Hv. eapply fred_carried, (R False j aj v); eauto using carried_fred.
  - intros j aj v Ga Hc Haj Hv. pose proof (hcarried_fred _ _ _ HM _ _ Hv) as Fv.
    assert (OHh : onehot_at j (map hval coeffs)) by (eapply OH; [|eauto]; intros i y Hy; apply hv_hval; eauto).
    pose proof (f_sbi lb m Hp Hlb Hlb2 Hm1 ch n k HN (concat (map ccells a) ++ coeffs) T True a coeffs Ha Hcp ltac:(apply incl_appr, incl_refl) HL HKs ltac:(intros; eapply onehot_at_onehot; eauto)) as H. cmp H.
    + apply Forall_app2.
      * apply Forall_concat, Forall_map. auto.
      * apply Forall_forall. intros y Hy. apply In_nth_error in Hy as (i & Hi). eapply hv_good. eauto.
    + intros c (Kc & Gc & R). apply fred_hcarried; auto. eapply (R True); eauto.
Qed.
End Fp.

Section Cancel.
Context (m : positive) (Hm : prime (Z.pos m)).
Add Ring Fringm : (F_ring m) (morphism (F_morph m), constants [Fcst]).
Lemma mul_div_cancel (u v : F m) : v <> F0 -> (u * v * Finv v)%F = u.
Proof. intros Hv. pose proof (Finv_l _ v Hm Hv) as E. transitivity (u * (Finv v * v))%F; [ring|rewrite E; ring]. Qed.
End Cancel.

(** ** The hypotheses are met by the real parameters: BN254's base field [q] inside a circuit over its scalar field [r], [n = 88], [k = 3], [lookup_bits = 17].
    Everything below is obtained from the theorems, starting from the empty context. *)
Section Instance.
Local Open Scope monad_scope.
Definition bn_r : positive := 21888242871839275222246405745257275088548364400416034343698204186575808495617.
Definition bn_q : positive := 21888242871839275222246405745257275088696311157297823662689037894645226208583.
Notation lb := 17%nat.
Notation n := 88%nat.
Notation k := 3%nat.
Lemma bn_cap : CAPACITY bn_r = 253%nat. Proof. vm_compute. reflexivity. Qed.
Lemma bn_bits : bits (Z.pos bn_q) = 254%nat. Proof. vm_compute. reflexivity. Qed.
Lemma bn_nb : NUM_BITS bn_r = 254%nat. Proof. vm_compute. reflexivity. Qed.
Lemma bn_pad : pad_bits lb n = 102%nat /\ pad_bits lb (n + 1) = 102%nat. Proof. split; vm_compute; reflexivity. Qed.
Example bn_chip : exists ch, fpchip_new (p:=bn_r) bn_q n k = Some ch.
Proof. apply (fpchip_new_total (p:=bn_r) lb bn_q bn254_r_prime); rewrite ?bn_cap; try lia. reflexivity. Qed.
Example bn_fp_params : fp_params (p:=bn_r) lb bn_q n k.
Proof.
  unfold fp_params, sizes_ok, lwidth. rewrite bn_cap, bn_bits, bn_nb. destruct bn_pad as [-> ->].
  repeat split; try lia.
Qed.
Example bn_zcap : zcap (p:=bn_r) n k. Proof. unfold zcap. rewrite bn_cap. apply Nat.ltb_lt. vm_compute. reflexivity. Qed.
Example bn_fits : fit_mod (p:=bn_r) lb n k (log2_ceil (Z.of_nat k) + n + n) /\ fit_zero (p:=bn_r) lb n k (Nat.max (log2_ceil (Z.of_nat k) + n + n) n + 1).
Proof.
  split.
  - apply (fit_mod_simple lb bn_q ltac:(lia) ltac:(rewrite bn_cap; lia) n k bn_fp_params). rewrite bn_cap. apply Nat.leb_le. vm_compute. reflexivity.
  - apply (fit_zero_simple (p:=bn_r) lb bn_q ltac:(lia) ltac:(rewrite bn_cap; lia)). rewrite bn_cap. apply Nat.leb_le. vm_compute. reflexivity.
Qed.
(** products of two carried elements are in range: [8 * M2 * M2 < W] *)
Example bn_bound : 8 * (2 ^ Z.of_nat (bits (Z.pos bn_q)) * 2 ^ Z.of_nat (bits (Z.pos bn_q)) + 2 ^ Z.of_nat (bits (Z.pos bn_q))) < 2 ^ Z.of_nat (n * k + NUM_BITS bn_r).
Proof. rewrite bn_bits, bn_nb. vm_compute. reflexivity. Qed.
Lemma hcarried_hover m n k (H : Z.pos m < 2 ^ Z.of_nat (bits (Z.pos m))) (c : crt bn_r) v : hcarried m n k c v -> hover m n c (2 ^ Z.of_nat (bits (Z.pos m))) v.
Proof.
  intros (G & _ & A & V). split; auto. exists (val v). pose proof (val_bounds m v). split; [now apply proper_crep|]. split; [rewrite Z.abs_eq; lia|]. split; auto. apply of_Z_val.
Qed.
(** load 5 and 7, multiply, divide by 7, compare with 5: the honest prover completes and gets 35, 5 and 1 *)
Example C49_C53_example : forall ch, fpchip_new (p:=bn_r) bn_q n k = Some ch ->
  comp lb (fun _ => True)
    (a <- fp_load_private lb bn_q ch (of_Z bn_q 5) ;; b <- fp_load_private lb bn_q ch (of_Z bn_q 7) ;; c <- fp_mul lb ch a b ;;
     d <- fp_divide lb bn_q ch c b ;; o <- fp_is_equal lb ch d a ;; ret (c, d, o))
    (fun r => let '(c, d, o) := r in hcarried bn_q n k c (of_Z bn_q 35) /\ hcarried bn_q n k d (of_Z bn_q 5) /\ hval o = F1) (fun _ _ => True).
Proof.
  intros ch HN. pose proof bn_fp_params as HK. destruct bn_fits as [F1' F2]. pose proof bn_zcap as HZ. pose proof bn254_r_prime as Hp. pose proof bn254_q_prime as Hq.
  assert (H1 : (1 <= lb < 64)%nat) by lia. assert (H2 : (2 * lb <= CAPACITY bn_r)%nat) by (rewrite bn_cap; lia).
  assert (HM : Z.pos bn_q < 2 ^ Z.of_nat (bits (Z.pos bn_q))) by (rewrite bn_bits; vm_compute; reflexivity).
  pose proof bn_bound as HB. assert (0 < 2 ^ Z.of_nat (bits (Z.pos bn_q))) by apply pow2_pos.
  assert (L : forall v, _) by exact (fun v => proj1 (C51_load_complete bn_r bn_q lb Hp H1 H2 Hq n k ch HN HK v)).
  eapply comp_bind; [apply L|cbv beta; auto|]. cbv beta. intros a Ha.
  eapply comp_bind; [apply L|cbv beta; auto|]. cbv beta. intros b Hb.
  eapply comp_bind; [apply (C53_mul_complete bn_r bn_q lb Hp H1 H2 Hq n k ch HN HK a b n n _ _ _ _ (proj1 (proj2 Ha)) (proj1 (proj2 Hb)) F1'
     (hcarried_hover _ _ _ HM _ _ Ha) (hcarried_hover _ _ _ HM _ _ Hb)); lia| |].
  { cbv beta. intros rho [[_ A] B]. apply Forall_app; split; assumption. }
  cbv beta. intros c Hc.
  assert (N7 : of_Z bn_q 7 <> F0). { intros E. apply (f_equal val) in E. vm_compute in E. discriminate. }
  eapply comp_bind; [apply (C53_divide_complete bn_r bn_q lb Hp H1 H2 Hq n k ch HN HK c b n _ _ _ (proj1 (proj2 Hc)) (proj1 (proj2 Hb)) F2 HZ (hcarried_hover _ _ _ HM _ _ Hc) Hb HB N7)| |].
  { cbv beta. intros rho [[[_ A] B] C]. apply Forall_app; split; assumption. }
  cbv beta. intros d Hd.
  rewrite (mul_div_cancel bn_q Hq _ _ N7) in Hd.
  eapply comp_bind; [apply (C52_tests_complete bn_r bn_q lb Hp H1 H2 Hq n k ch HN HK d a _ _ (proj1 (proj2 Hd)) (proj1 (proj2 Ha)) HZ Hd Ha)| |].
  { cbv beta. intros rho [[[[_ A] B] C] D]. apply Forall_app; split; assumption. }
  cbv beta. intros o [Go Ho]. apply comp_ret; auto.
Qed.
End Instance.
