(** Property theorems C72-C75: extension-field chips (halo2-ecc/src/fields/{vector,fp2,fp12}.rs) and the native field chip (native_fp.rs).
    Reading guide: [sound]/[comp] as in PropsGate.v; [over]/[carried]/[canonical]/[hover]/[hcarried] as in PropsFp.v, here coordinate by coordinate. *)
From Coq Require Import ZArith Znumtheory Lia List Bool Ring.
From Verif Require Import Field Spec Context ContextProofs Utils Logic Gate GateProofs ChainProofs IPProofs BitProofs PowProofs IPComp Derived Calc CalcH
  Range RangeProofs RangeProofs2 RangeProofs3 BigInt BigSpec BigNum BigPrims BigOps BigSel BigCmp BigSub BigCarry BigMod BigCrtNum BigCrt
  FpChip FpProofs FpProofs2 FpProofs3 FpField FpField2 FpField3 Bn254Primes PropsBigInt PropsFp FieldExt ExtSpec ExtProofs ExtProofs2 ExtProofs3 ExtProofs4 ExtProofs5 NativeFp.
Import ListNotations.
Local Open Scope Z_scope.

Section VecSpec.
Context {p : positive} (m : positive) (n k : nat).
(** vectors of CRT integers, coordinate by coordinate *)
Definition overs (e : env) (a : list (crt p)) (B : Z) (v : list (F m)) : Prop := Forall2 (fun c x => over m n e c B x) a v.
Definition carrieds (e : env) (a : list (crt p)) (v : list (F m)) : Prop := Forall2 (fun c x => carried m n e c x) a v.
Definition canonicals (e : env) (a : list (crt p)) (v : list (F m)) : Prop := Forall2 (fun c x => canonical m n e c x) a v.
Definition hovers (a : list (crt p)) (B : Z) (v : list (F m)) : Prop := Forall2 (fun c x => hover m n c B x) a v.
Definition hcarrieds (a : list (crt p)) (v : list (F m)) : Prop := Forall2 (fun c x => hcarried m n k c x) a v.
(** [k] limbs of declared size at most (resp. exactly) [b] bits in every coordinate *)
Definition vlimbs (a : list (crt p)) (b : nat) : Prop := Forall (fun c => length (c_limbs c) = k /\ (c_bits c <= b)%nat) a.
Definition vlimbs_eq (a : list (crt p)) (b : nat) : Prop := Forall (fun c => isk k c b) a.
Definition cells (a : list (crt p)) : list (AV p) := flat_map ccells a.

Lemma overs_vrep e a B v : overs e a B v -> vrep m n False e a B v.
Proof. apply F2_impl. intros. now apply over_frep. Qed.
Lemma vrep_overs h e a B v : vrep m n h e a B v -> overs e a B v.
Proof. apply F2_impl. intros c x (z & A & B' & C & _). exists z. auto. Qed.
Lemma carrieds_vred e a v : carrieds e a v -> vred m n False e a v.
Proof. apply F2_impl. intros. now apply carried_fred. Qed.
Lemma vred_carrieds h e a v : vred m n h e a v -> carrieds e a v.
Proof. apply F2_impl. intros. eapply fred_carried; eauto. Qed.
Lemma vcan_canonicals (Hm : 1 < Z.pos m) h e a v : vcan m n h e a v -> canonicals e a v.
Proof. apply F2_impl. intros. eapply fcan_canonical; eauto. Qed.
Lemma canonicals_vcan e a v : canonicals e a v -> vcan m n False e a v.
Proof. apply F2_impl. intros c x H. pose proof (val_bounds m x). exists (val x). split; auto. split; [lia|]. split; [apply of_Z_val|tauto]. Qed.
Lemma hovers_vrep a B v : hovers a B v -> vrep m n True hval a B v.
Proof. apply F2_impl. intros. now apply hover_frep. Qed.
Lemma hovers_good a B v : hovers a B v -> Forall good (vcells a).
Proof. induction 1 as [|c x a v [G _] H IH]; [constructor|]. unfold vcells. cbn [flat_map]. apply Forall_app. auto. Qed.
Lemma vrep_hovers a B v : Forall good (vcells a) -> vrep m n True hval a B v -> hovers a B v.
Proof.
  intros G H. induction H as [|c x a v (z & A & B' & C & D) H IH]; [constructor|]. unfold vcells in G. cbn [flat_map] in G. apply Forall_app in G as [G1 G2]. constructor; [|now apply IH].
  split; auto. exists z. destruct (D I) as [_ D2]. auto.
Qed.
Lemma hcarrieds_good a v : hcarrieds a v -> Forall good (vcells a).
Proof. induction 1 as [|c x a v [G _] H IH]; [constructor|]. unfold vcells. cbn [flat_map]. apply Forall_app. auto. Qed.
Lemma hcarrieds_vlimbs a v : hcarrieds a v -> vlimbs_eq a n.
Proof. induction 1 as [|c x a v (_ & K & _) H IH]; constructor; auto. Qed.
Lemma hcarrieds_vred (H : Z.pos m < 2 ^ Z.of_nat (bits (Z.pos m))) a v : hcarrieds a v -> vred m n True hval a v.
Proof. apply F2_impl. intros c x Hx. eapply (hcarried_fred m n k); eauto. Qed.
Lemma vred_hcarrieds a v : Forall good (vcells a) -> vlimbs_eq a n -> vred m n True hval a v -> hcarrieds a v.
Proof.
  intros G K H. induction H as [|c x a v Hc H IH]; [constructor|]. unfold vcells in G. cbn [flat_map] in G. apply Forall_app in G as [G1 G2]. inversion K; subst. constructor; [|now apply IH].
  now apply fred_hcarried.
Qed.
Lemma hcarrieds_len a v : hcarrieds a v -> length a = length v. Proof. induction 1; cbn [length]; lia. Qed.
Lemma hovers_len a B v : hovers a B v -> length a = length v. Proof. induction 1; cbn [length]; lia. Qed.
End VecSpec.

Lemma Fapp2 {A} (Q : A -> Prop) l l' : Forall Q l -> Forall Q l' -> Forall Q (l ++ l'). Proof. intros. now apply Forall_app. Qed.
Section Ext.
Context (p m : positive) (lb : nat) (Hp : prime (Z.pos p)) (Hlb : (1 <= lb < 64)%nat) (Hlb2 : (2 * lb <= CAPACITY p)%nat) (Hm : prime (Z.pos m)).
Context (n k : nat) (ch : fpchip p) (HN : fpchip_new m n k = Some ch) (HK : fp_params (p:=p) lb m n k).
Notation vec := (list (crt p)).
Notation overs := (overs (p:=p) m n).
Notation carrieds := (carrieds (p:=p) m n).
Notation canonicals := (canonicals (p:=p) m n).
Notation hovers := (hovers (p:=p) m n).
Notation hcarrieds := (hcarrieds (p:=p) m n k).
Notation vlimbs := (vlimbs (p:=p) k).
Notation vlimbs_eq := (vlimbs_eq (p:=p) k).
Notation W := (2 ^ Z.of_nat (n * k + NUM_BITS p)).
Notation M2 := (2 ^ Z.of_nat (bits (Z.pos m))).
(** [b]-bit limbs can be carried: [max(b + 1, 2n + bit_length k) + lookup_bits + 2 <= F::CAPACITY] *)
Notation room := (ExtProofs.room (p:=p) lb n k).
Notation lg := (log2_ceil (Z.of_nat k)).
Notation U := (fun _ _ => True).
Let Hm1 : 1 < Z.pos m. Proof. pose proof (prime_ge_2 _ Hm). lia. Qed.
Let HM : Z.pos m < M2. Proof. exact (m_le_M2 lb m Hlb Hlb2 Hm1). Qed.
Let T : env (p:=p) -> Prop := fun _ => True.
Let i64 s := - 2 ^ 63 < s < 2 ^ 63.
Add Ring Fringm : (F_ring m) (morphism (F_morph m), constants [Fcst]).

Ltac snd H := eapply sound_weaken; [apply (h_sound lb _ _ _ _ _ H)|cbv beta|cbv beta]; auto.
Ltac cmp H := eapply comp_weaken; [apply (h_comp lb _ _ _ _ _ H)|cbv beta|cbv beta|cbv beta]; auto.
Lemma vl (a b : vec) : vpre (cells a ++ cells b) a. Proof. apply incl_appl, incl_refl. Qed.
Lemma vr (a b : vec) : vpre (cells a ++ cells b) b. Proof. apply incl_appr, incl_refl. Qed.

(** ** C72: coordinate-wise operations *)
Theorem C72_linear_sound : forall (a b : vec) (x : crt p) (ba bb bx : nat) (s : Z) (c : list (F m)), vlimbs a ba -> vlimbs b bb -> vlimbs [x] bx -> i64 s ->
  sound lb (vec_add_no_carry a b) (fun o => length a = length b /\ length o = length a /\ vlimbs o (Nat.max ba bb + 1))
    (fun sg o => forall Ba Bb u v, overs (avs sg) a Ba u -> overs (avs sg) b Bb v -> overs (avs sg) o (Ba + Bb) (vmap2 Fadd u v)) /\
  sound lb (vec_sub_no_carry a b) (fun o => length a = length b /\ length o = length a /\ vlimbs o (Nat.max ba bb + 1))
    (fun sg o => forall Ba Bb u v, overs (avs sg) a Ba u -> overs (avs sg) b Bb v -> overs (avs sg) o (Ba + Bb) (vmap2 Fsub u v)) /\
  sound lb (vec_scalar_mul_and_add_no_carry a b s) (fun o => length a = length b /\ length o = length a /\ vlimbs o (Nat.max (ba + log2_ceil (Z.abs s)) bb + 1))
    (fun sg o => forall Ba Bb u v, overs (avs sg) a Ba u -> overs (avs sg) b Bb v -> overs (avs sg) o (Ba * Z.abs s + Bb) (vmap2 (fun x y => x * of_Z m s + y)%F u v)) /\
  sound lb (vec_scalar_mul_no_carry a s) (fun o => length o = length a /\ vlimbs o (ba + log2_ceil (Z.abs s)))
    (fun sg o => forall Ba u, overs (avs sg) a Ba u -> overs (avs sg) o (Ba * Z.abs s) (map (fun x => x * of_Z m s)%F u)) /\
  sound lb (vec_add_constant_no_carry m ch a c) (fun o => length a = length c /\ length o = length a /\ vlimbs o (Nat.max ba n + 1))
    (fun sg o => forall Ba u, overs (avs sg) a Ba u -> overs (avs sg) o (Ba + M2) (vmap2 Fadd u c)) /\
  sound lb (vec_fp_mul_no_carry ch a x) (fun o => length o = length a /\ vlimbs o (lg + ba + bx))
    (fun sg o => forall Ba Bx u y, overs (avs sg) a Ba u -> over m n (avs sg) x Bx y -> overs (avs sg) o (Ba * Bx) (map (fun z => z * y)%F u)).
Proof.
  intros a b x ba bb bx s c Ka Kb Kx Hs. inversion Kx as [|? ? Kx1 _]; subst. split; [|split; [|split; [|split; [|split]]]].
  - pose proof (v_add lb m Hlb Hlb2 n k (cells a ++ cells b) T False a b ba bb (vl a b) (vr a b) Ka Kb ltac:(intros [])) as H. snd H.
    intros sg o _ R Ba Bb u v Hu Hv. eapply vrep_overs, (R False); now apply overs_vrep.
  - pose proof (v_sub lb m Hlb Hlb2 n k (cells a ++ cells b) T False a b ba bb (vl a b) (vr a b) Ka Kb ltac:(intros [])) as H. snd H.
    intros sg o _ R Ba Bb u v Hu Hv. eapply vrep_overs, (R False); now apply overs_vrep.
  - pose proof (v_smul_add lb m Hlb Hlb2 n k (cells a ++ cells b) T False a b ba bb s (vl a b) (vr a b) Ka Kb ltac:(intros []) Hs) as H. snd H.
    intros sg o _ R Ba Bb u v Hu Hv. eapply vrep_overs, (R False); now apply overs_vrep.
  - pose proof (v_smul lb m Hlb Hlb2 n k (cells a) T False a ba s (incl_refl _) Ka Hs) as H. snd H.
    intros sg o _ R Ba u Hu. eapply vrep_overs, (R False); now apply overs_vrep.
  - pose proof (v_addc lb m Hp Hlb Hlb2 Hm1 ch n k HN HK (cells a) T False a ba c (incl_refl _) Ka ltac:(intros [])) as H. snd H.
    intros sg o _ R Ba u Hu. eapply vrep_overs, (R False); now apply overs_vrep.
  - pose proof (v_fp_mul lb m Hp Hlb Hlb2 Hm1 ch n k HN HK (ccells x ++ cells a) T False a x ba bx ltac:(apply incl_appr, incl_refl) ltac:(apply incl_appl, incl_refl) Ka Kx1) as H. snd H.
    intros sg o _ R Ba Bx u y Hu Hy. eapply vrep_overs, (R False); [now apply overs_vrep|now apply over_frep].
Qed.
Theorem C72_linear_complete : forall (a b : vec) (x : crt p) (ba bb bx : nat) (s : Z) (c : list (F m)) (Ba Bb Bx : Z) (u v : list (F m)) (y : F m),
  vlimbs a ba -> vlimbs b bb -> vlimbs [x] bx -> i64 s -> length a = length b -> length a = length c -> hovers a Ba u -> hovers b Bb v -> hover m n x Bx y ->
  comp lb (oks (cells a ++ cells b)) (vec_add_no_carry a b) (fun o => hovers o (Ba + Bb) (vmap2 Fadd u v)) (fun rho o => oks (cells o) rho) /\
  comp lb (oks (cells a ++ cells b)) (vec_sub_no_carry a b) (fun o => hovers o (Ba + Bb) (vmap2 Fsub u v)) (fun rho o => oks (cells o) rho) /\
  comp lb (oks (cells a ++ cells b)) (vec_scalar_mul_and_add_no_carry a b s) (fun o => hovers o (Ba * Z.abs s + Bb) (vmap2 (fun x y => x * of_Z m s + y)%F u v)) (fun rho o => oks (cells o) rho) /\
  comp lb (oks (cells a)) (vec_scalar_mul_no_carry a s) (fun o => hovers o (Ba * Z.abs s) (map (fun x => x * of_Z m s)%F u)) (fun rho o => oks (cells o) rho) /\
  comp lb (oks (cells a)) (vec_add_constant_no_carry m ch a c) (fun o => hovers o (Ba + M2) (vmap2 Fadd u c)) (fun rho o => oks (cells o) rho) /\
  comp lb (oks (ccells x ++ cells a)) (vec_fp_mul_no_carry ch a x) (fun o => hovers o (Ba * Bx) (map (fun z => z * y)%F u)) (fun rho o => oks (cells o) rho).
Proof.
  intros a b x ba bb bx s c Ba Bb Bx u v y Ka Kb Kx Hs HL HLc Hu Hv Hy. inversion Kx as [|? ? Kx1 _]; subst.
  pose proof (hovers_good _ _ _ _ _ Hu) as Ga. pose proof (hovers_good _ _ _ _ _ Hv) as Gb. pose proof (hovers_vrep _ _ _ _ _ Hu) as Fu. pose proof (hovers_vrep _ _ _ _ _ Hv) as Fv.
  pose proof (hover_frep _ _ _ _ _ Hy) as Fy. destruct Hy as [Gx _]. split; [|split; [|split; [|split; [|split]]]].
  - pose proof (v_add lb m Hlb Hlb2 n k (cells a ++ cells b) T True a b ba bb (vl a b) (vr a b) Ka Kb (fun _ => HL)) as H. cmp H.
    + now apply Fapp2.
    + intros o (_ & Go & R). apply vrep_hovers; auto.
  - pose proof (v_sub lb m Hlb Hlb2 n k (cells a ++ cells b) T True a b ba bb (vl a b) (vr a b) Ka Kb (fun _ => HL)) as H. cmp H.
    + now apply Fapp2.
    + intros o (_ & Go & R). apply vrep_hovers; auto.
  - pose proof (v_smul_add lb m Hlb Hlb2 n k (cells a ++ cells b) T True a b ba bb s (vl a b) (vr a b) Ka Kb (fun _ => HL) Hs) as H. cmp H.
    + now apply Fapp2.
    + intros o (_ & Go & R). apply vrep_hovers; auto.
  - pose proof (v_smul lb m Hlb Hlb2 n k (cells a) T True a ba s (incl_refl _) Ka Hs) as H. cmp H.
    intros o (_ & Go & R). apply vrep_hovers; auto.
  - pose proof (v_addc lb m Hp Hlb Hlb2 Hm1 ch n k HN HK (cells a) T True a ba c (incl_refl _) Ka (fun _ => HLc)) as H. cmp H.
    intros o (_ & Go & R). apply vrep_hovers; auto.
  - pose proof (v_fp_mul lb m Hp Hlb Hlb2 Hm1 ch n k HN HK (ccells x ++ cells a) T True a x ba bx ltac:(apply incl_appr, incl_refl) ltac:(apply incl_appl, incl_refl) Ka Kx1) as H. cmp H.
    + now apply Fapp2.
    + intros o (_ & Go & R). apply vrep_hovers; auto.
Qed.
Theorem C72_carry : forall (a : vec) (ba : nat), vlimbs a ba -> room ba ->
  sound lb (vec_carry_mod lb ch a) (fun o => length o = length a /\ vlimbs_eq o n)
    (fun sg o => forall B v, overs (avs sg) a B v -> 8 * B < W -> carrieds (avs sg) o v) /\
  sound lb (vec_check_carry_mod_to_zero lb ch a) (fun _ => True)
    (fun sg _ => forall B v, overs (avs sg) a B v -> 8 * B < W -> Forall (fun x => x = F0) v) /\
  (forall B v, hovers a B v -> 8 * B < W ->
     comp lb (oks (cells a)) (vec_carry_mod lb ch a) (fun o => hcarrieds o v) (fun rho o => oks (cells o) rho) /\
     (Forall (fun x => x = F0) v -> comp lb (oks (cells a)) (vec_check_carry_mod_to_zero lb ch a) (fun _ => True) U)).
Proof.
  intros a ba Ka Hr. split; [|split].
  - pose proof (v_carry lb m Hp Hlb Hlb2 Hm1 ch n k HN HK (cells a) T False a ba (incl_refl _) Ka Hr ltac:(intros [])) as H. snd H.
    intros sg o _ R B v Hv HB. eapply vred_carrieds, (R False B); auto. now apply overs_vrep.
  - pose proof (v_check0 lb m Hp Hlb Hlb2 Hm1 ch n k HN HK (cells a) T False a ba (incl_refl _) Ka Hr ltac:(intros [])) as H. snd H.
    intros sg o _ R B v Hv HB. eapply (R False B); auto. now apply overs_vrep.
  - intros B v Hv HB. pose proof (hovers_good _ _ _ _ _ Hv) as Ga. pose proof (hovers_vrep _ _ _ _ _ Hv) as Fv. split.
    + pose proof (v_carry lb m Hp Hlb Hlb2 Hm1 ch n k HN HK (cells a) T True a ba (incl_refl _) Ka Hr ltac:(intros _ _; exists B, v; auto)) as H. cmp H.
      intros o ([L K] & Go & R). apply vred_hcarrieds; auto. apply (R True B); auto.
    + intros H0. pose proof (v_check0 lb m Hp Hlb Hlb2 Hm1 ch n k HN HK (cells a) T True a ba (incl_refl _) Ka Hr ltac:(intros _ _; exists B, v; auto)) as H. cmp H.
Qed.
Theorem C72_load : forall a : list (F m),
  sound lb (vec_load_private lb m ch a) (fun o => length o = length a /\ vlimbs_eq o n) (fun sg o => exists v, length v = length a /\ carrieds (avs sg) o v) /\
  sound lb (vec_load_private_reduced lb m ch a) (fun o => length o = length a /\ vlimbs_eq o n) (fun sg o => exists v, length v = length a /\ canonicals (avs sg) o v) /\
  sound lb (vec_load_constant m ch a) (fun o => length o = length a /\ vlimbs_eq o n) (fun sg o => canonicals (avs sg) o a) /\
  comp lb (fun _ => True) (vec_load_private lb m ch a) (fun o => hcarrieds o a) (fun rho o => oks (cells o) rho) /\
  comp lb (fun _ => True) (vec_load_private_reduced lb m ch a) (fun o => hcarrieds o a) (fun rho o => oks (cells o) rho) /\
  comp lb (fun _ => True) (vec_load_constant m ch a) (fun o => hcarrieds o a) (fun rho o => oks (cells o) rho).
Proof.
  intros a.
  pose proof (fun Hon => v_load_private lb m Hp Hlb Hlb2 Hm1 ch n k HN HK [] T Hon a) as H1.
  pose proof (fun Hon => v_load_private_reduced lb m Hp Hlb Hlb2 Hm1 ch n k HN HK [] T Hon a) as H2.
  pose proof (fun Hon => v_load_constant lb m Hp Hlb Hlb2 Hm1 ch n k HN HK [] T Hon a) as H3.
  split; [|split; [|split; [|split; [|split]]]].
  - snd (H1 False). intros sg o _ (v & Lv & R & _). exists v. split; auto. eapply vred_carrieds, (R False). intros [].
  - snd (H2 False). intros sg o _ (v & Lv & R & _). exists v. split; auto. eapply vcan_canonicals, (R False); auto. intros [].
  - snd (H3 False). intros sg o _ R. eapply vcan_canonicals, (R False); auto. intros [].
  - cmp (H1 True). intros o ([L K] & Go & v & Lv & R & E). rewrite <- (E eq_refl). apply vred_hcarrieds; auto.
  - cmp (H2 True). intros o ([L K] & Go & v & Lv & R & E). rewrite <- (E eq_refl). apply vred_hcarrieds; auto. apply (vcan_vred lb m Hlb Hlb2 Hm1); auto.
  - cmp (H3 True). intros o ([L K] & Go & R). apply vred_hcarrieds; auto. apply (vcan_vred lb m Hlb Hlb2 Hm1); auto.
Qed.

Theorem C72_negate_select : forall (a b : vec) (sel : AV p), vlimbs_eq a n -> vlimbs_eq b n ->
  sound lb (vec_negate lb ch a) (fun o => length o = length a /\ vlimbs_eq o n) (fun sg o => forall u, carrieds (avs sg) a u -> carrieds (avs sg) o (map Fopp u)) /\
  sound lb (vec_select a b sel) (fun o => length a = length b /\ length o = length a /\ vlimbs_eq o n)
    (fun sg o => forall u v, carrieds (avs sg) a u -> carrieds (avs sg) b v ->
       (avs sg sel = F1 -> carrieds (avs sg) o u) /\ (avs sg sel = F0 -> carrieds (avs sg) o v)) /\
  (forall u v (s : bool), hcarrieds a u -> hcarrieds b v -> hv sel (fbool s) ->
     (zcap (p:=p) n k -> comp lb (oks (cells a)) (vec_negate lb ch a) (fun o => hcarrieds o (map Fopp u)) (fun rho o => oks (cells o) rho)) /\
     (length a = length b -> comp lb (oks (sel :: cells a ++ cells b)) (vec_select a b sel) (fun o => hcarrieds o (if s then u else v)) (fun rho o => oks (cells o) rho))).
Proof.
  intros a b sel Ka Kb.
  assert (Ca : vpre (sel :: cells a ++ cells b) a) by (apply incl_tl, incl_appl, incl_refl).
  assert (Cb : vpre (sel :: cells a ++ cells b) b) by (apply incl_tl, incl_appr, incl_refl).
  split; [|split].
  - pose proof (v_negate lb m Hp Hlb Hlb2 Hm1 ch n k HN HK (cells a) T False a (incl_refl _) Ka ltac:(intros []) ltac:(intros [])) as H. snd H.
    intros sg o _ R u Hu. eapply vred_carrieds, (R False). now apply carrieds_vred.
  - pose proof (v_select lb m Hp Hlb Hlb2 n k (sel :: cells a ++ cells b) T False a b sel Ca Cb ltac:(now left) Ka Kb ltac:(intros [])) as H. snd H.
    intros sg o _ R u v Hu Hv. split; intros Es; eapply vred_carrieds.
    + apply (R False u v true); auto using carrieds_vred.
    + apply (R False u v false); auto using carrieds_vred.
  - intros u v s Hu Hv Hs. pose proof (hcarrieds_good _ _ _ _ _ Hu) as Ga. pose proof (hcarrieds_good _ _ _ _ _ Hv) as Gb.
    pose proof (hcarrieds_vred _ _ _ HM _ _ Hu) as Fu. pose proof (hcarrieds_vred _ _ _ HM _ _ Hv) as Fv. split.
    + intros Hz. pose proof (v_negate lb m Hp Hlb Hlb2 Hm1 ch n k HN HK (cells a) T True a (incl_refl _) Ka ltac:(auto) ltac:(intros _ _; eauto)) as H. cmp H.
      intros o ([L K] & Go & R). apply vred_hcarrieds; auto.
    + intros HL. pose proof (v_select lb m Hp Hlb Hlb2 n k (sel :: cells a ++ cells b) T True a b sel Ca Cb ltac:(now left) Ka Kb (fun _ => HL)) as H. cmp H.
      * constructor; [eauto using hv_good|now apply Fapp2].
      * intros o ((_ & L & K) & Go & R). apply vred_hcarrieds; auto. apply (R True u v s); eauto using hv_hval.
Qed.
(** "all coordinates are 0", "equal coordinate by coordinate" *)
Definition is0s (v : list (F m)) : bool := forallb Fis0 v.
Fixpoint eqs (u v : list (F m)) : bool := match u, v with [], [] => true | x :: u, y :: v => Feqb x y && eqs u v | _, _ => false end.
Lemma eqs_eq u v : eqs u v = true <-> u = v.
Proof.
  revert v. induction u as [|x u IH]; intros [|y v]; cbn [eqs]; try (split; [discriminate|intros [=]]); [tauto|]. rewrite andb_true_iff, Feqb_eq, IH. split; [intros [-> ->]; auto|intros [= -> ->]; auto].
Qed.
Lemma eqs_veqb u v : length u = length v -> veqb m u v = eqs u v.
Proof. intros H. apply eq_true_iff_eq. rewrite (veqb_eq (p:=p) lb m Hlb Hlb2), eqs_eq; tauto. Qed.
Theorem C72_tests_sound : forall (a b : vec), vlimbs_eq a n -> vlimbs_eq b n ->
  sound lb (vec_is_zero lb ch a) (fun _ => a <> [])
    (fun sg o => forall u, carrieds (avs sg) a u -> canonicals (avs sg) a u /\ avs sg o = if is0s u then F1 else F0) /\
  sound lb (vec_is_equal lb ch a b) (fun _ => length a = length b /\ a <> [])
    (fun sg o => forall u v, carrieds (avs sg) a u -> carrieds (avs sg) b v -> canonicals (avs sg) a u /\ canonicals (avs sg) b v /\ avs sg o = if eqs u v then F1 else F0) /\
  sound lb (vec_enforce_less_than lb ch a) (fun o => o = a) (fun sg _ => forall u, carrieds (avs sg) a u -> canonicals (avs sg) a u) /\
  (** [assert_equal] stops at the end of the shorter argument *)
  sound lb (vec_assert_equal lb ch a b) (fun _ => True)
    (fun sg _ => forall u v, carrieds (avs sg) a u -> carrieds (avs sg) b v -> (forall i x y, nth_error u i = Some x -> nth_error v i = Some y -> x = y) /\ (length a = length b -> u = v)) /\
  sound lb (vec_is_soft_zero a) (fun _ => a <> []) (fun sg o => forall u, canonicals (avs sg) a u -> avs sg o = if is0s u then F1 else F0) /\
  sound lb (vec_is_equal_unenforced a b) (fun _ => length a = length b /\ a <> [])
    (fun sg o => forall u v, canonicals (avs sg) a u -> canonicals (avs sg) b v -> avs sg o = if eqs u v then F1 else F0) /\
  (** 1 exactly when some coordinate is non-zero and below [m] *)
  sound lb (vec_is_soft_nonzero lb ch a) (fun _ => a <> [])
    (fun sg o => forall x, Forall2 (proper n (avs sg)) a x -> avs sg o = if existsb (fun x => negb (x =? 0) && (x <? Z.pos m)) x then F1 else F0).
Proof.
  intros a b Ka Kb.
  assert (FB : forall b : bool, fbool b = if b then F1 else F0 :> F p) by (intros []; reflexivity).
  assert (LEN : forall e (a b : vec) u v, length a = length b -> vred m n False e a u -> vred m n False e b v -> length u = length v).
  { intros e a0 b0 u v HL Hu Hv. apply (vred_len lb m Hlb Hlb2) in Hu, Hv. congruence. }
  split; [|split; [|split; [|split; [|split; [|split]]]]].
  - pose proof (v_is_zero lb m Hp Hlb Hlb2 Hm1 ch n k HN HK (cells a) T False a (incl_refl _) Ka ltac:(intros []) ltac:(intros []) ltac:(intros [])) as H. snd H.
    intros sg o _ R u Hu. destruct (R False u) as [X Y]; [now apply carrieds_vred|]. split; [eapply vcan_canonicals; eauto|]. rewrite Y. apply FB.
  - pose proof (v_is_equal lb m Hp Hlb Hlb2 Hm1 ch n k HN HK (cells a ++ cells b) T False a b (vl a b) (vr a b) Ka Kb ltac:(intros []) ltac:(intros [])) as H. snd H.
    intros sg o [HL _] R u v Hu Hv. apply carrieds_vred in Hu, Hv. destruct (R False u v) as (X & Y & Z0); auto.
    split; [eapply vcan_canonicals; eauto|]. split; [eapply vcan_canonicals; eauto|]. rewrite Z0, eqs_veqb by (eapply LEN; eauto). apply FB.
  - pose proof (v_enforce lb m Hp Hlb Hlb2 Hm1 ch n k HN HK (cells a) T False a (incl_refl _) Ka ltac:(intros [])) as H. snd H.
    intros sg o _ R u Hu. eapply vcan_canonicals, (R False); auto. now apply carrieds_vred.
  - pose proof (v_assert_equal lb m Hp Hlb Hlb2 Hm1 ch n k HN HK (cells a ++ cells b) T False a b (vl a b) (vr a b) Ka Kb ltac:(intros [])) as H. snd H.
    intros sg o _ R u v Hu Hv. apply carrieds_vred in Hu, Hv. pose proof (R False u v Hu Hv) as E. split; auto. intros HL. pose proof (LEN _ _ _ _ _ HL Hu Hv) as HL'.
    clear - E HL'. revert v E HL'. induction u as [|x u IH]; intros [|y v] E HL'; try discriminate; auto. f_equal; [apply (E 0%nat); auto|]. apply IH; [|now injection HL']. intros i. apply (E (S i)).
  - pose proof (v_is_soft_zero lb m Hp Hlb Hlb2 n k HK (cells a) T False a (incl_refl _) Ka ltac:(intros []) ltac:(intros [])) as H. snd H.
    intros sg o _ R u Hu. rewrite (R False u) by now apply canonicals_vcan. apply FB.
  - pose proof (v_is_equal_unenforced lb m Hp Hlb Hlb2 n k HK (cells a ++ cells b) T False a b (vl a b) (vr a b) Ka Kb ltac:(intros [])) as H. snd H.
    intros sg o [HL _] R u v Hu Hv. apply canonicals_vcan in Hu, Hv. rewrite (R False u v Hu Hv), eqs_veqb; [apply FB|]. apply (vcan_vred lb m Hlb Hlb2 Hm1) in Hu, Hv. eapply LEN; eauto.
  - pose proof (v_is_soft_nonzero lb m Hp Hlb Hlb2 Hm1 ch n k HN HK (cells a) T False a (incl_refl _) Ka ltac:(intros []) ltac:(intros []) ltac:(intros [])) as H. snd H.
Qed.
Theorem C72_tests_complete : forall (a b : vec) (u v : list (F m)), a <> [] -> length a = length b -> zcap (p:=p) n k -> hcarrieds a u -> hcarrieds b v ->
  comp lb (oks (cells a)) (vec_is_zero lb ch a) (fun o => good o /\ hval o = if is0s u then F1 else F0) (fun rho o => av_ok rho o) /\
  comp lb (oks (cells a ++ cells b)) (vec_is_equal lb ch a b) (fun o => good o /\ hval o = if eqs u v then F1 else F0) (fun rho o => av_ok rho o) /\
  comp lb (oks (cells a)) (vec_enforce_less_than lb ch a) (fun o => o = a) U /\
  (u = v -> comp lb (oks (cells a ++ cells b)) (vec_assert_equal lb ch a b) (fun _ => True) U).
Proof.
  intros a b u v Na HL Hz Hu Hv. pose proof (hcarrieds_good _ _ _ _ _ Hu) as Ga. pose proof (hcarrieds_good _ _ _ _ _ Hv) as Gb.
  pose proof (hcarrieds_vred _ _ _ HM _ _ Hu) as Fu. pose proof (hcarrieds_vred _ _ _ HM _ _ Hv) as Fv. pose proof (hcarrieds_vlimbs _ _ _ _ _ Hu) as Ka. pose proof (hcarrieds_vlimbs _ _ _ _ _ Hv) as Kb.
  assert (FB : forall b : bool, fbool b = if b then F1 else F0 :> F p) by (intros []; reflexivity).
  split; [|split; [|split]].
  - pose proof (v_is_zero lb m Hp Hlb Hlb2 Hm1 ch n k HN HK (cells a) T True a (incl_refl _) Ka ltac:(auto) ltac:(auto) ltac:(intros _ _; eauto)) as H. cmp H.
    + intros o (_ & Go & R). split; [now inversion Go|]. destruct (R True u Fu) as [_ ->]. apply FB.
    + intros rho o _ _ K. now inversion K.
  - pose proof (v_is_equal lb m Hp Hlb Hlb2 Hm1 ch n k HN HK (cells a ++ cells b) T True a b (vl a b) (vr a b) Ka Kb ltac:(auto) ltac:(intros _ _; eauto)) as H. cmp H.
    + now apply Fapp2.
    + intros o (_ & Go & R). split; [now inversion Go|]. destruct (R True u v Fu Fv) as (_ & _ & ->). rewrite eqs_veqb; [apply FB|]. apply hcarrieds_len in Hu, Hv. congruence.
    + intros rho o _ _ K. now inversion K.
  - pose proof (v_enforce lb m Hp Hlb Hlb2 Hm1 ch n k HN HK (cells a) T True a (incl_refl _) Ka ltac:(intros _ _; eauto)) as H. cmp H. tauto.
  - intros <-. pose proof (v_assert_equal lb m Hp Hlb Hlb2 Hm1 ch n k HN HK (cells a ++ cells b) T True a b (vl a b) (vr a b) Ka Kb ltac:(intros _ _; eauto)) as H. cmp H.
    now apply Fapp2.
Qed.
End Ext.
