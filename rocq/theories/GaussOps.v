(** The no-carry operations of Fp2Chip (FieldExt.v, FinalExp.v) in terms of the exact integers their coordinates stand for (pairs of integers, read as [x + y u]),
    needed where bounds on the field level are too coarse for the carry checks. [h : Prop] as in FpField.v. *)
From Coq Require Import ZArith Znumtheory Lia List Bool Ring.
From Verif Require Import Field Spec Context ContextProofs Utils Logic Gate GateProofs ChainProofs IPProofs BitProofs PowProofs IPComp Derived
  Range RangeProofs RangeProofs2 RangeProofs3 RegionGets Calc CalcH RegionPrev RegionLast BigPrims BigNum BigInt BigSpec BigOps BigSel BigCmp BigSub BigCarry BigMod BigCrtNum BigCrt FpChip FpProofs FpProofs2 FpProofs3 FpField FpField2 FpField3 FieldExt ExtSpec ExtProofs ExtProofs2 ExtProofs3 ExtProofs4 ExtProofs5 FinalExp.
Import ListNotations.
Local Open Scope Z_scope.

(** pairs of integers as [x + y u], [u^2 = -1] *)
Definition gz : Type := Z * Z.
Definition gadd (x y : gz) : gz := (fst x + fst y, snd x + snd y).
Definition gsub (x y : gz) : gz := (fst x - fst y, snd x - snd y).
Definition gmul (x y : gz) : gz := (fst x * fst y - snd x * snd y, fst x * snd y + snd x * fst y).
Definition gscale (x : gz) (s : Z) : gz := (fst x * s, snd x * s).
Definition gle (x : gz) (B : Z) : Prop := Z.abs (fst x) <= B /\ Z.abs (snd x) <= B.
Definition of2 (m : positive) (x : gz) : x2 m := (of_Z m (fst x), of_Z m (snd x)).

Section Gauss.
Context {p : positive}.
Notation Fp := (F p).
Notation AV := (AV p).
Notation crt := (crt p).
Notation vec := (list crt).
Variables (lb : nat) (m : positive).
Notation env := (env (p:=p)).
Notation hcalc := (hcalc lb).
Hypothesis Hp : prime (Z.pos p).
Hypothesis Hlb : (1 <= lb < 64)%nat.
Hypothesis Hlb2 : (2 * lb <= CAPACITY p)%nat.
Hypothesis Hm : 1 < Z.pos m.
Add Ring Fring : (F_ring p) (morphism (F_morph p), constants [Fcst]).
Add Ring Fringm : (F_ring m) (morphism (F_morph m), constants [Fcst]).
Variables (ch : fpchip p) (n k : nat).
Hypothesis HN : fpchip_new m n k = Some ch.
Hypothesis HK : fp_params (p:=p) lb m n k.
Notation mz := (Z.pos m).
Notation Fm := (F m).
Notation M2 := (2 ^ Z.of_nat (bits mz)).
Notation W := (2 ^ Z.of_nat (n * k + NUM_BITS p)).
Notation frep := (frep (p:=p) m n).
Notation fred := (fred (p:=p) m n).
Notation isk := (isk k).
Notation lg := (log2_ceil (Z.of_nat k)).
Notation islk := (islk k).
Notation room := (room (p:=p) lb n k).
Notation visk := (visk k).
Notation vism := (vism n k).
Notation vrep := (vrep m n).
Notation vred := (vred m n).
Notation red2 := (red2 (p:=p) m n).
Notation of2 := (of2 m).

Lemma of2_add x y : of2 (gadd x y) = x2_add (of2 x) (of2 y). Proof. unfold GaussOps.of2, gadd, x2_add. cbn [fst snd]. now rewrite !of_Z_add. Qed.
Lemma of2_sub x y : of2 (gsub x y) = x2_sub (of2 x) (of2 y). Proof. unfold GaussOps.of2, gsub, x2_sub, x2_add, x2_opp. cbn [fst snd]. rewrite !of_Z_sub. f_equal; ring. Qed.
Lemma of2_mul x y : of2 (gmul x y) = x2_mul (of2 x) (of2 y). Proof. unfold GaussOps.of2, gmul, x2_mul. cbn [fst snd]. now rewrite of_Z_sub, of_Z_add, !of_Z_mul. Qed.
Lemma of2_scale x s : of2 (gscale x s) = x2_mul (of2 x) (of_Z m s, F0). Proof. unfold GaussOps.of2, gscale, x2_mul. cbn [fst snd]. rewrite !of_Z_mul. f_equal; ring. Qed.
Lemma of2_xi s : of2 (s, 1) = xi s. Proof. reflexivity. Qed.

Definition zrep (h : Prop) (e : env) (c : crt) (x : Z) : Prop := crep n e c x /\ (h -> e = hval /\ c_val c = x).
Definition zv (h : Prop) (e : env) (a : vec) (z : gz) : Prop := exists a0 a1, a = [a0; a1] /\ zrep h e a0 (fst z) /\ zrep h e a1 (snd z).
Lemma zv2 h e (a0 a1 : crt) z : zv h e [a0; a1] z <-> zrep h e a0 (fst z) /\ zrep h e a1 (snd z).
Proof. split; [intros (b0 & b1 & E & A & B); injection E as <- <-; auto|intros [A B]; exists a0, a1; auto]. Qed.
Lemma fred_zrep h e c v : fred h e c v -> exists z, zrep h e c z /\ 0 <= z < M2 /\ of_Z m z = v.
Proof. intros (z & A & B & C & D). pose proof (proper_bound _ _ _ _ A). exists z. split; [split; [now apply proper_crep|]|split; [lia|auto]]. intros Hh. now destruct (D Hh) as (? & ? & ?). Qed.
Lemma red2_zv h e a x : red2 h e a x -> exists z, zv h e a z /\ (0 <= fst z < M2 /\ 0 <= snd z < M2) /\ of2 z = x.
Proof.
  unfold ExtProofs3.red2. intros H. inversion H as [|a0 ? a' ? H0 H1]; subst. inversion H1 as [|a1 ? a'' ? H2 H3]; subst. inversion H3; subst.
  apply fred_zrep in H0 as (z0 & A0 & B0 & C0). apply fred_zrep in H2 as (z1 & A1 & B1 & C1). exists (z0, z1). split; [exists a0, a1; auto|]. split; [auto|].
  unfold GaussOps.of2. cbn [fst snd]. rewrite C0, C1. now destruct x.
Qed.
Lemma zrep_frep h e c z B : zrep h e c z -> Z.abs z <= B -> frep h e c B (of_Z m z). Proof. intros [A D] H. exists z. auto. Qed.
Lemma zv_vrep h e a z B : zv h e a z -> gle z B -> vrep h e a B [of_Z m (fst z); of_Z m (snd z)].
Proof. intros (a0 & a1 & -> & A0 & A1) [B0 B1]. apply (vrep2 m n). split; now apply zrep_frep. Qed.
Lemma zv_len h e a z : zv h e a z -> length a = 2%nat. Proof. now intros (a0 & a1 & -> & _). Qed.

Section Ops.
Variables (L : list AV) (Pre : env -> Prop) (Hon : Prop).
Lemma z_add (a b : crt) ba bb : cpre L a -> cpre L b -> islk a ba -> islk b bb ->
  hcalc L Pre Hon (fp_add_no_carry a b) (fun c => islk c (Nat.max ba bb + 1)) (fun e c => forall h x y, zrep h e a x -> zrep h e b y -> zrep h e c (x + y)) ccells.
Proof.
  intros Ca Cb [La Ba] [Lb Bb]. unfold fp_add_no_carry.
  eapply h_post; [apply h_pure with (P' := fun c => c_val c = c_val a + c_val b); [apply (h_add_crt lb L Pre Hon a b); auto; congruence|]| | |]; cbv beta.
  - intros s c s' E. unfold add_crt, bind, ret in E. destruct (add_assign _ _ s) as [[? s1]|]; [|discriminate]. destruct (add _ _ s1) as [[? ?]|]; [|discriminate]. now injection E as <- _.
  - intros c ((X1 & X2 & _) & _). split; [congruence|lia].
  - intros e c (_ & V) _ R h x y [X1 X2] [Y1 Y2]. split; [now apply R|]. intros Hh. destruct (X2 Hh) as [? E1]. destruct (Y2 Hh) as [_ E2]. split; auto. lia.
  - intros c _. apply incl_appl, incl_refl.
Qed.
Lemma z_sub (a b : crt) ba bb : cpre L a -> cpre L b -> islk a ba -> islk b bb ->
  hcalc L Pre Hon (fp_sub_no_carry a b) (fun c => islk c (Nat.max ba bb + 1)) (fun e c => forall h x y, zrep h e a x -> zrep h e b y -> zrep h e c (x - y)) ccells.
Proof.
  intros Ca Cb [La Ba] [Lb Bb]. unfold fp_sub_no_carry.
  eapply h_post; [apply (h_sub_crt lb L Pre Hon a b); auto; congruence| | |]; cbv beta.
  - intros c (X1 & X2 & _). split; [congruence|lia].
  - intros e c (_ & _ & V) _ R h x y [X1 X2] [Y1 Y2]. split; [now apply R|]. intros Hh. destruct (X2 Hh) as [? E1]. destruct (Y2 Hh) as [_ E2]. split; auto. lia.
  - intros c _. apply incl_appl, incl_refl.
Qed.
Lemma z_mul (a b : crt) ba bb : cpre L a -> cpre L b -> islk a ba -> islk b bb ->
  hcalc L Pre Hon (fp_mul_no_carry ch a b) (fun c => islk c (lg + ba + bb)) (fun e c => forall h x y, zrep h e a x -> zrep h e b y -> zrep h e c (x * y)) ccells.
Proof.
  intros Ca Cb [La Ba] [Lb Bb].
  eapply h_post; [apply (h_fp_mul_no_carry lb m Hp Hlb Hlb2 Hm ch n k HN HK L Pre Hon a b); auto| | |]; cbv beta.
  - intros c (X1 & X2 & _). split; [congruence|lia].
  - intros e c (_ & _ & V) _ R h x y [X1 X2] [Y1 Y2]. split; [now apply R|]. intros Hh. destruct (X2 Hh) as [? E1]. destruct (Y2 Hh) as [_ E2]. split; auto. now rewrite V, E1, E2.
  - intros c _. apply incl_appl, incl_refl.
Qed.
Lemma z_smul (a : crt) ba s : cpre L a -> islk a ba -> - 2 ^ 63 < s < 2 ^ 63 ->
  hcalc L Pre Hon (fp_scalar_mul_no_carry a s) (fun c => islk c (ba + log2_ceil (Z.abs s))) (fun e c => forall h x, zrep h e a x -> zrep h e c (x * s)) ccells.
Proof.
  intros Ca [La Ba] Hs. unfold fp_scalar_mul_no_carry.
  eapply h_post; [apply (h_scalar_mul_crt lb L Pre Hon a s); auto| | |]; cbv beta.
  - intros c (X1 & X2 & _). split; [congruence|lia].
  - intros e c (_ & _ & V) _ R h x [X1 X2]. split; [now apply R|]. intros Hh. destruct (X2 Hh) as [? E1]. split; auto. now rewrite V, E1.
  - intros c _. apply incl_appl, incl_refl.
Qed.
Lemma z_smul_add (a b : crt) ba bb s : cpre L a -> cpre L b -> islk a ba -> islk b bb -> - 2 ^ 63 < s < 2 ^ 63 ->
  hcalc L Pre Hon (fp_scalar_mul_and_add_no_carry a b s) (fun c => islk c (Nat.max (ba + log2_ceil (Z.abs s)) bb + 1)) (fun e c => forall h x y, zrep h e a x -> zrep h e b y -> zrep h e c (x * s + y)) ccells.
Proof.
  intros Ca Cb [La Ba] [Lb Bb] Hs. unfold fp_scalar_mul_and_add_no_carry.
  eapply h_post; [apply (h_scalar_mul_add_crt lb L Pre Hon a b s); auto; congruence| | |]; cbv beta.
  - intros c (X1 & X2 & _). split; [congruence|lia].
  - intros e c (_ & _ & V) _ R h x y [X1 X2] [Y1 Y2]. split; [now apply (R n)|]. intros Hh. destruct (X2 Hh) as [? E1]. destruct (Y2 Hh) as [_ E2]. split; auto. now rewrite V, E1, E2.
  - intros c _. apply incl_appl, incl_refl.
Qed.
Lemma z_select (a b : crt) ba bb sel : cpre L a -> cpre L b -> In sel L -> islk a ba -> islk b bb ->
  hcalc L Pre Hon (fp_select a b sel) (fun c => islk c (Nat.max ba bb)) (fun e c => forall h x y (s : bool), e sel = fbool s -> zrep h e a x -> zrep h e b y -> zrep h e c (if s then x else y)) ccells.
Proof.
  intros Ca Cb Cs [La Ba] [Lb Bb]. unfold fp_select.
  eapply h_post; [apply (h_select_crt lb L Pre Hon a b sel); auto; congruence| | |]; cbv beta; auto.
  - intros c (X1 & X2 & _). split; [congruence|lia].
  - intros e c (X1 & X2 & X3) _ R h x y s Es [A D] [A' D']. pose proof (R s Es) as SV. split.
    + destruct s; eapply same_crep; eauto; lia.
    + intros Hh. destruct (D Hh) as [E0 E1]. destruct (D' Hh) as [_ E2]. split; auto. rewrite E0 in Es. rewrite X3, Es, (Fis0_fbool (p:=p)) by auto. now destruct s.
  - intros c _. apply incl_appl, incl_refl.
Qed.
(** adding one to the lowest limb and to the native cell *)
Lemma z_plus_one (a : crt) ba : cpre L a -> islk a ba -> (0 < k)%nat ->
  hcalc L Pre Hon (crt_plus_one a) (fun c => islk c (ba + 1)) (fun e c => forall h x, zrep h e a x -> zrep h e c (x + 1)) ccells.
Proof.
  intros Ca [La Ba] Hk. unfold crt_plus_one. fold (c_limbs a). destruct (c_limbs a) as [|l0 ls] eqn:El; [cbn in La; lia|].
  assert (Il : incl (l0 :: ls) L). { intros x Hx. apply Ca. right. now rewrite El. }
  eapply h_bind; [apply calc_h, (calc_add lb L Pre (Existing l0) (Constant F1)); cbn [qin]; auto; apply Il; now left|]. cbv beta. intros l _. cbn [app].
  eapply h_bind; [apply calc_h, (calc_add lb _ _ (Existing (c_nat a)) (Constant F1)); cbn [qin]; auto; right; apply Ca; now left|]. cbv beta. intros nt _. cbn [app].
  apply h_ret.
  - unfold ExtProofs.islk, c_limbs, c_bits in *. cbn [c_trunc o_limbs o_bits length] in *. split; lia.
  - unfold ccells, c_limbs. cbn [c_nat c_trunc o_limbs one app]. intros x [<-|[<-|Hx]]; [now left|right; now left|]. right. right. apply Il. now right.
  - intros e [[HP R1] R2] h x [(zs & A1 & A2 & A3 & A4) D]. cbn [qe] in R1, R2. split.
    + rewrite El in A1. destruct zs as [|z0 zs]; cbn [map] in A1; [discriminate|]. injection A1 as A1 A1'. inversion A2 as [|? ? A20 A21]; subst.
      exists (z0 + 1 :: zs). unfold c_limbs, c_bits in *. cbn [c_trunc o_limbs o_bits c_nat map length] in *. 
      assert (P2 : 2 ^ Z.of_nat (o_bits (c_trunc a)) + 1 <= 2 ^ Z.of_nat (o_bits (c_trunc a) + 1)).
      { rewrite Nat2Z.inj_add, Z.pow_add_r by lia. pose proof (pow2_pos (o_bits (c_trunc a))). change (2 ^ Z.of_nat 1) with 2. lia. }
      split; [rewrite R1, A1', A1, of_Z_add; reflexivity|]. split; [|split].
      * apply Forall_cons; [lia|]. eapply Forall_impl; [|exact A21]. cbv beta. intros y Hy. lia.
      * rewrite El in A3. cbn [length undigits] in *. replace (z0 + 1 + _ - (x + 1)) with (z0 + 2 ^ Z.of_nat n * undigits n zs - x) by ring. exact A3.
      * rewrite R2, A4, of_Z_add. reflexivity.
    + intros Hh. destruct (D Hh) as [-> E]. split; auto. cbn [c_val]. lia.
Qed.

(** ** two coordinates at a time *)
Lemma q_add (a b : vec) ba bb : vpre L a -> vpre L b -> visk a ba -> visk b bb -> length a = 2%nat -> length b = 2%nat ->
  hcalc L Pre Hon (vec_add_no_carry a b) (fun o => length o = 2%nat /\ visk o (Nat.max ba bb + 1)) (fun e o => forall h x y, zv h e a x -> zv h e b y -> zv h e o (gadd x y)) vcells.
Proof.
  intros Ca Cb Ka Kb La Lb. unfold vec_add_no_carry.
  eapply h_post; [apply (v_zipM lb m Hlb Hlb2 L Pre Hon ccells (fun x y => fp_add_no_carry x y) (fun c => islk c ba) (fun c => islk c bb) (fun c => islk c (Nat.max ba bb + 1)) (fun e x y c => forall h u v, zrep h e x u -> zrep h e y v -> zrep h e c (u + v)) a b Ca Cb Ka Kb ltac:(congruence)); intros; apply z_add; auto| | |]; cbv beta.
  - intros o (_ & H1 & H2). split; [congruence|exact H2].
  - intros e o _ _ R h x y (a0 & a1 & -> & X0 & X1) (b0 & b1 & -> & Y0 & Y1). cbn [combine] in R. inversion R as [|? o0 ? o' R0 R']; subst. inversion R' as [|? o1 ? o'' R1 R'']; subst. inversion R''; subst.
    exists o0, o1. cbn [fst snd gadd] in *. auto.
  - intros c _. apply incl_appl, incl_refl.
Qed.
Lemma q_sub (a b : vec) ba bb : vpre L a -> vpre L b -> visk a ba -> visk b bb -> length a = 2%nat -> length b = 2%nat ->
  hcalc L Pre Hon (vec_sub_no_carry a b) (fun o => length o = 2%nat /\ visk o (Nat.max ba bb + 1)) (fun e o => forall h x y, zv h e a x -> zv h e b y -> zv h e o (gsub x y)) vcells.
Proof.
  intros Ca Cb Ka Kb La Lb. unfold vec_sub_no_carry.
  eapply h_post; [apply (v_zipM lb m Hlb Hlb2 L Pre Hon ccells (fun x y => fp_sub_no_carry x y) (fun c => islk c ba) (fun c => islk c bb) (fun c => islk c (Nat.max ba bb + 1)) (fun e x y c => forall h u v, zrep h e x u -> zrep h e y v -> zrep h e c (u - v)) a b Ca Cb Ka Kb ltac:(congruence)); intros; apply z_sub; auto| | |]; cbv beta.
  - intros o (_ & H1 & H2). split; [congruence|exact H2].
  - intros e o _ _ R h x y (a0 & a1 & -> & X0 & X1) (b0 & b1 & -> & Y0 & Y1). cbn [combine] in R. inversion R as [|? o0 ? o' R0 R']; subst. inversion R' as [|? o1 ? o'' R1 R'']; subst. inversion R''; subst.
    exists o0, o1. cbn [fst snd gsub] in *. auto.
  - intros c _. apply incl_appl, incl_refl.
Qed.
Lemma q_smul_add (a b : vec) ba bb s : vpre L a -> vpre L b -> visk a ba -> visk b bb -> length a = 2%nat -> length b = 2%nat -> - 2 ^ 63 < s < 2 ^ 63 ->
  hcalc L Pre Hon (vec_scalar_mul_and_add_no_carry a b s) (fun o => length o = 2%nat /\ visk o (Nat.max (ba + log2_ceil (Z.abs s)) bb + 1)) (fun e o => forall h x y, zv h e a x -> zv h e b y -> zv h e o (gadd (gscale x s) y)) vcells.
Proof.
  intros Ca Cb Ka Kb La Lb Hs. unfold vec_scalar_mul_and_add_no_carry.
  eapply h_post; [apply (v_zipM lb m Hlb Hlb2 L Pre Hon ccells (fun x y => fp_scalar_mul_and_add_no_carry x y s) (fun c => islk c ba) (fun c => islk c bb) (fun c => islk c (Nat.max (ba + log2_ceil (Z.abs s)) bb + 1)) (fun e x y c => forall h u v, zrep h e x u -> zrep h e y v -> zrep h e c (u * s + v)) a b Ca Cb Ka Kb ltac:(congruence)); intros; apply z_smul_add; auto| | |]; cbv beta.
  - intros o (_ & H1 & H2). split; [congruence|exact H2].
  - intros e o _ _ R h x y (a0 & a1 & -> & X0 & X1) (b0 & b1 & -> & Y0 & Y1). cbn [combine] in R. inversion R as [|? o0 ? o' R0 R']; subst. inversion R' as [|? o1 ? o'' R1 R'']; subst. inversion R''; subst.
    exists o0, o1. cbn [fst snd gadd gscale] in *. auto.
  - intros c _. apply incl_appl, incl_refl.
Qed.
Lemma q_select (a b : vec) ba bb sel : vpre L a -> vpre L b -> In sel L -> visk a ba -> visk b bb -> length a = 2%nat -> length b = 2%nat ->
  hcalc L Pre Hon (vec_select a b sel) (fun o => length o = 2%nat /\ visk o (Nat.max ba bb)) (fun e o => forall h x y (s : bool), e sel = fbool s -> zv h e a x -> zv h e b y -> zv h e o (if s then x else y)) vcells.
Proof.
  intros Ca Cb Cs Ka Kb La Lb. unfold vec_select.
  eapply h_post; [apply (v_zipM lb m Hlb Hlb2 L Pre Hon ccells (fun x y => fp_select x y sel) (fun c => islk c ba) (fun c => islk c bb) (fun c => islk c (Nat.max ba bb)) (fun e x y c => forall h u v (s : bool), e sel = fbool s -> zrep h e x u -> zrep h e y v -> zrep h e c (if s then u else v)) a b Ca Cb Ka Kb ltac:(congruence)); intros; apply z_select; auto| | |]; cbv beta.
  - intros o (_ & H1 & H2). split; [congruence|exact H2].
  - intros e o _ _ R h x y s Hs (a0 & a1 & -> & X0 & X1) (b0 & b1 & -> & Y0 & Y1). cbn [combine] in R. inversion R as [|? o0 ? o' R0 R']; subst. inversion R' as [|? o1 ? o'' R1 R'']; subst. inversion R''; subst.
    exists o0, o1. cbn [fst snd] in *. specialize (R0 h _ _ s Hs X0 Y0). specialize (R1 h _ _ s Hs X1 Y1). destruct s; auto.
  - intros c _. apply incl_appl, incl_refl.
Qed.
Lemma q_smul (a : vec) ba s : vpre L a -> visk a ba -> length a = 2%nat -> - 2 ^ 63 < s < 2 ^ 63 ->
  hcalc L Pre Hon (vec_scalar_mul_no_carry a s) (fun o => length o = 2%nat /\ visk o (ba + log2_ceil (Z.abs s))) (fun e o => forall h x, zv h e a x -> zv h e o (gscale x s)) vcells.
Proof.
  intros Ca Ka La Hs. unfold vec_scalar_mul_no_carry.
  eapply h_post; [apply (v_mapM lb L Pre Hon (fun x => fp_scalar_mul_no_carry x s) (fun c => islk c ba) (fun c => islk c (ba + log2_ceil (Z.abs s))) (fun e x c => forall h u, zrep h e x u -> zrep h e c (u * s)) a Ca Ka); intros; apply z_smul; auto| | |]; cbv beta.
  - intros o (H1 & H2). split; [congruence|exact H2].
  - intros e o _ _ R h x (a0 & a1 & -> & X0 & X1). inversion R as [|? o0 ? o' R0 R']; subst. inversion R' as [|? o1 ? o'' R1 R'']; subst. inversion R''; subst.
    exists o0, o1. cbn [fst snd gscale] in *. auto.
  - intros c _. apply incl_appl, incl_refl.
Qed.

End Ops.
Ltac inc1 := first [ assumption | apply incl_refl | (apply incl_appl; inc1) | (apply incl_appr; inc1) ].
Ltac inc := cbn [app]; first [ assumption | (unfold cpre, vpre; inc1) | (eapply cpre_incl; [eassumption|inc1]) | (eapply vpre_incl; [eassumption|inc1]) ].
Tactic Notation "nb" uconstr(lem) := eapply h_bind; [eapply lem; try inc; try eassumption|]; cbv beta; [..|let c := fresh "c" in let K := fresh "K" in intros c K; cbn [app]].
Ltac zf1 :=
  match goal with
  | H : _ /\ _ |- _ => lazymatch type of H with (_ <= _ < _)%nat => fail | _ => destruct H end
  | H : forall h x y, zrep h ?e ?a x -> zrep h ?e ?b y -> _, A : zrep ?h ?e ?a ?x, B : zrep ?h ?e ?b ?y |- _ => specialize (H h x y A B); cbv beta in H
  | H : forall h x, zrep h ?e ?a x -> _, A : zrep ?h ?e ?a ?x |- _ => specialize (H h x A); cbv beta in H
  end.
Lemma zrep_eq h e (c : crt) x y : zrep h e c x -> x = y -> zrep h e c y. Proof. now intros ? <-. Qed.
Section Ops2.
Variables (L : list AV) (Pre : env -> Prop) (Hon : Prop).
Lemma q_mul (a b : vec) ba bb : vpre L a -> vpre L b -> visk a ba -> visk b bb -> length a = 2%nat -> length b = 2%nat ->
  hcalc L Pre Hon (fp2_mul_no_carry ch a b) (fun o => length o = 2%nat /\ visk o (lg + ba + bb + 1)) (fun e o => forall h x y, zv h e a x -> zv h e b y -> zv h e o (gmul x y)) vcells.
Proof.
  intros Ca Cb Ka Kb La Lb. unfold fp2_mul_no_carry. rewrite La, Lb. cbn [Nat.eqb].
  apply len2 in La as (a0 & a1 & ->), Lb as (b0 & b1 & ->). cbn [list_prod map app].
  do 2 (eapply h_assert_bind; [auto|intros _]). cbv beta.
  apply vpre_cons in Ca as [Ca0 Ca1], Cb as [Cb0 Cb1]. apply vpre_cons in Ca1 as [Ca1 _], Cb1 as [Cb1 _].
  unfold ExtProofs.visk in Ka, Kb. inversion Ka as [|? ? Ka0 Ka1]; subst. inversion Ka1 as [|? ? Ka2 _]; subst. inversion Kb as [|? ? Kb0 Kb1]; subst. inversion Kb1 as [|? ? Kb2 _]; subst. 
  eapply h_bind; [apply (h_mapM lb L Pre Hon _ (fun _ c => islk c (lg + ba + bb)) (fun e xy c => forall h u v, zrep h e (fst xy) u -> zrep h e (snd xy) v -> zrep h e c (u * v)) ccells)|]; cbv beta.
  { intros xy Hxy. cbn [In] in Hxy. destruct Hxy as [<-|[<-|[<-|[<-|[]]]]]; cbn [fst snd]; apply z_mul; auto. }
  intros ab Hab. inversion Hab as [|? c0 ? ab1 K0 H1]; subst. inversion H1 as [|? c1 ? ab2 K1 H2]; subst. inversion H2 as [|? c2 ? ab3 K2 H3]; subst. inversion H3 as [|? c3 ? ab4 K3 H4]; subst. inversion H4; subst. clear Hab H1 H2 H3 H4.
  cbn [flat_map]. rewrite app_nil_r, <- !app_assoc.
  do 4 (eapply h_lift_bind; [intros; cbn [nth_error]; eauto|intros ? E; cbn [nth_error] in E; injection E as <-]).
  nb (z_sub). nb (z_add).
  apply h_ret.
  - split; auto. apply Forall_cons; [|apply Forall_cons; [|constructor]]; (eapply (islk_le lb m Hlb Hlb2); [eassumption|lia]).
  - apply vpre_cons. split; [inc|]. apply vpre_cons. split; [inc|]. intros x [].
  - intros e [[[HP HR] R1] R2] h x y Hx Hy. apply zv2 in Hx as [X0 X1], Hy as [Y0 Y1]. apply zv2. cbn [fst snd gmul].
    inversion HR as [|? ? ? ? Q0 HR1]; subst. inversion HR1 as [|? ? ? ? Q1 HR2]; subst. inversion HR2 as [|? ? ? ? Q2 HR3]; subst. inversion HR3 as [|? ? ? ? Q3 _]; subst. cbn [fst snd] in *. repeat zf1.
    split; eapply zrep_eq; eauto; ring.
Qed.
Lemma q_w6 (a : vec) ba s : vpre L a -> visk a ba -> - 2 ^ 63 < s < 2 ^ 63 -> length a = 2%nat ->
  hcalc L Pre Hon (mul_no_carry_w6 s a) (fun o => length o = 2%nat /\ visk o (ba + log2_ceil (Z.abs s) + 1)) (fun e o => forall h x, zv h e a x -> zv h e o (gmul x (s, 1))) vcells.
Proof.
  intros Ca Ka Hs La. unfold mul_no_carry_w6. apply len2 in La as (a0 & a1 & ->).
  apply vpre_cons in Ca as [Ca0 Ca1]. apply vpre_cons in Ca1 as [Ca1 _]. inversion Ka as [|? ? Ka0 Ka1]; subst. inversion Ka1 as [|? ? Ka2 _]; subst.
  nb (z_smul). nb (z_sub). nb (z_smul_add).
  apply h_ret.
  - split; auto. apply Forall_cons; [|apply Forall_cons; [|constructor]]; (eapply (islk_le lb m Hlb Hlb2); [eassumption|lia]).
  - apply vpre_cons. split; [inc|]. apply vpre_cons. split; [inc|]. intros x [].
  - intros e [[[HP R0] R1] R2] h x Hx. apply zv2 in Hx as [X0 X1]. apply zv2. cbn [fst snd gmul]. repeat zf1.
    split; eapply zrep_eq; eauto; ring.
Qed.
Lemma q_plus_one (a : vec) ba : vpre L a -> visk a ba -> length a = 2%nat -> (0 < k)%nat ->
  hcalc L Pre Hon (match a with [] => panic | x :: r => bind (crt_plus_one x) (fun y => ret (y :: r)) end) (fun o => length o = 2%nat /\ visk o (ba + 1)) (fun e o => forall h x, zv h e a x -> zv h e o (gadd x (1, 0))) vcells.
Proof.
  intros Ca Ka La Hk. apply len2 in La as (a0 & a1 & ->).
  apply vpre_cons in Ca as [Ca0 Ca1]. apply vpre_cons in Ca1 as [Ca1 _]. inversion Ka as [|? ? Ka0 Ka1]; subst. inversion Ka1 as [|? ? Ka2 _]; subst.
  nb (z_plus_one); auto.
  apply h_ret.
  - split; auto. apply Forall_cons; [|apply Forall_cons; [|constructor]]; (eapply (islk_le lb m Hlb Hlb2); [eassumption|lia]).
  - apply vpre_cons. split; [inc|]. apply vpre_cons. split; [inc|]. intros x [].
  - intros e [HP R0] h x Hx. apply zv2 in Hx as [X0 X1]. apply zv2. cbn [fst snd gadd]. repeat zf1. rewrite Z.add_0_r. auto.
Qed.
Lemma q_carry (a : vec) ba : vpre L a -> visk a ba -> room ba -> length a = 2%nat -> (Hon -> Pre hval -> exists z B, zv True hval a z /\ gle z B /\ 8 * B < W) ->
  hcalc L Pre Hon (vec_carry_mod lb ch a) (fun o => length o = 2%nat /\ vism o) (fun e o => forall h z B, zv h e a z -> gle z B -> 8 * B < W -> red2 h e o (of2 z)) vcells.
Proof.
  intros Ca Ka Hr La HH.
  eapply h_post; [apply (v_carry lb m Hp Hlb Hlb2 Hm ch n k HN HK L Pre Hon a ba Ca Ka Hr)| | |]; cbv beta.
  - intros Hh HP. destruct (HH Hh HP) as (z & B & Hz & HB & HW). exists B, [of_Z m (fst z); of_Z m (snd z)]. split; [now apply zv_vrep|auto].
  - intros o [L1 L2]. split; [congruence|auto].
  - intros e o _ _ R h z B Hz HB HW. apply (R h B); [now apply zv_vrep|auto].
  - intros o _. apply incl_appl, incl_refl.
Qed.
End Ops2.
(** dividing uncarried operands; [hint] is the prover's choice *)
Lemma gmul_le x y A B : gle x A -> gle y B -> gle (gmul x y) (2 * (A * B)).
Proof.
  intros [X0 X1] [Y0 Y1]. assert (PA : forall a b, Z.abs a <= A -> Z.abs b <= B -> Z.abs (a * b) <= A * B). { intros a b Ha Hb. rewrite Z.abs_mul. apply Z.mul_le_mono_nonneg; lia. }
  unfold gle, gmul. cbn [fst snd]. pose proof (PA _ _ X0 Y0). pose proof (PA _ _ X1 Y1). pose proof (PA _ _ X0 Y1). pose proof (PA _ _ X1 Y0). lia.
Qed.
Lemma gsub_le x y A B : gle x A -> gle y B -> gle (gsub x y) (A + B). Proof. unfold gle, gsub. cbn [fst snd]. lia. Qed.
Lemma zv_value (h : Prop) e a z : h -> zv h e a z -> map (fun c : crt => of_Z m (c_val c)) a = [of_Z m (fst z); of_Z m (snd z)].
Proof. intros Hh (a0 & a1 & -> & [_ A0] & [_ A1]). destruct (A0 Hh) as [_ E0]. destruct (A1 Hh) as [_ E1]. cbn [map]. now rewrite E0, E1. Qed.
Lemma zv_hon (h : Prop) e a z : zv h e a z -> h -> e = hval. Proof. intros (a0 & a1 & _ & [_ A0] & _) Hh. now destruct (A0 Hh). Qed.
Lemma q_check0 L (Pre : env -> Prop) (Hon : Prop) (a : vec) ba B : vpre L a -> visk a ba -> room ba -> 8 * B < W -> (Hon -> Pre hval -> exists z, zv True hval a z /\ gle z B /\ of2 z = x2_0) ->
  hcalc L Pre Hon (vec_check_carry_mod_to_zero lb ch a) (fun _ => True) (fun e _ => forall h z, zv h e a z -> gle z B -> of2 z = x2_0) (fun _ => []).
Proof.
  intros Ca Ka Hr HB HH.
  eapply h_post; [apply (v_check0 lb m Hp Hlb Hlb2 Hm ch n k HN HK L Pre Hon a ba Ca Ka Hr)| | |]; cbv beta; auto.
  - intros Hh HP. destruct (HH Hh HP) as (z & Hz & HBz & E). exists B, [of_Z m (fst z); of_Z m (snd z)]. split; [now apply zv_vrep|]. split; auto. unfold GaussOps.of2, x2_0 in E.
    apply Forall_cons; [exact (f_equal fst E)|apply Forall_cons; [exact (f_equal snd E)|constructor]].
  - intros e _ _ _ R h z Hz HBz. pose proof (R h B _ (zv_vrep h e a z B Hz HBz) HB) as E. inversion E as [|? ? E0 E']; subst. inversion E' as [|? ? E1 _]; subst. unfold GaussOps.of2, x2_0. now rewrite E0, E1.
  - intros _ _ x [].
Qed.
Lemma x2_sub0 (x y : x2 m) : x2_sub x y = x2_0 -> x = y.
Proof. destruct x as [a b], y as [c d]. unfold x2_sub, x2_add, x2_opp, x2_0. cbn [fst snd]. intros E. pose proof (f_equal fst E) as E0. pose proof (f_equal snd E) as E1. cbn [fst snd] in E0, E1.
  f_equal; [transitivity (a - c + c)%F; [ring|rewrite E0; ring]|transitivity (b - d + d)%F; [ring|rewrite E1; ring]]. Qed.
Lemma x2_subx (x : x2 m) : x2_sub x x = x2_0. Proof. destruct x as [a b]. unfold x2_sub, x2_add, x2_opp, x2_0. cbn [fst snd]. f_equal; ring. Qed.
Lemma list2 (w : list Fm) : length w = 2%nat -> exists x : x2 m, w = [fst x; snd x]. Proof. intros H. apply len2 in H as (a & b & ->). now exists (a, b). Qed.
Lemma list2_inj (x y : x2 m) : [fst x; snd x] = [fst y; snd y] -> x = y. Proof. destruct x, y. cbn [fst snd]. now intros [= -> ->]. Qed.
Lemma small_gle z : 0 <= fst z < M2 /\ 0 <= snd z < M2 -> gle z M2. Proof. unfold gle. lia. Qed.
Lemma q_divide L (Pre : env -> Prop) (Hon : Prop) (a b : vec) ba bb A B (hint : list Fm -> list Fm -> list Fm) :
  vpre L a -> vpre L b -> visk a ba -> visk b bb -> length a = 2%nat -> length b = 2%nat ->
  room (Nat.max (lg + n + bb + 1) ba + 1) -> 8 * (2 * (M2 * B) + A) < W -> (forall u v, length u = 2%nat -> length v = 2%nat -> length (hint u v) = 2%nat) ->
  (Hon -> Pre hval -> exists x y w, zv True hval a x /\ zv True hval b y /\ gle x A /\ gle y B /\ hint [fst (of2 x); snd (of2 x)] [fst (of2 y); snd (of2 y)] = [fst w; snd w] /\ x2_mul w (of2 y) = of2 x) ->
  hcalc L Pre Hon (ext_divide_unsafe lb m ch 2 (fp2_mul_no_carry ch) hint a b) (fun o => length o = 2%nat /\ vism o)
    (fun e o => forall h x y, zv h e a x -> zv h e b y -> gle x A -> gle y B -> 
       exists w, red2 h e o w /\ x2_mul w (of2 y) = of2 x /\ (h -> [fst w; snd w] = hint [fst (of2 x); snd (of2 x)] [fst (of2 y); snd (of2 y)])) vcells.
Proof.
  intros Ca Cb Ka Kb La Lb Hr HB HL HH. unfold ext_divide_unsafe. rewrite !(value_ok lb m Hp Hlb Hlb2 Hm ch n k HN), La, Lb. cbn [Nat.eqb].
  do 2 (eapply h_lift_bind; [eauto|intros ? EQ; injection EQ as <-]).
  set (qv := hint _ _). assert (Lqv : length qv = 2%nat) by (apply HL; rewrite map_length; auto).
  eapply h_bind; [apply (v_load_private lb m Hp Hlb Hlb2 Hm ch n k HN HK)|]. cbv beta. intros q [Lq Kq]. rewrite Lqv in Lq.
  pose proof (vism_visk n k q Kq) as Kq'.
  eapply h_bind; [apply (q_mul _ _ _ q b n bb); auto; inc|]. cbv beta. intros qb [Lqb Kqb]. cbn [app].
  eapply h_bind; [apply (q_sub _ _ _ qb a (lg + n + bb + 1) ba); auto; inc|]. cbv beta. intros c [Lc Kc]. cbn [app].
  eapply h_bind; [apply (q_check0 _ _ _ c (Nat.max (lg + n + bb + 1) ba + 1) (2 * (M2 * B) + A)); [inc|exact Kc|exact Hr|exact HB|]|]; cbv beta.
  { intros Hh [[[HP RQ] RM] RS]. destruct (HH Hh HP) as (x & y & w & Hx & Hy & Bx & By & EQ & E). destruct RQ as (v & Lv & RV & EV). rewrite Lqv in Lv. destruct (list2 v Lv) as [v' ->].
    assert (RV1 : red2 True hval q v') by (apply RV; auto). destruct (red2_zv _ _ _ _ RV1) as (z & Hz & Bz & Ez).
    exists (gsub (gmul z y) x). split; [apply RS; auto|]. split; [apply gsub_le; auto; apply gmul_le; auto; now apply small_gle|].
    rewrite of2_sub, of2_mul, Ez. replace v' with w; [rewrite E; apply x2_subx|]. apply list2_inj. rewrite EV by auto. unfold qv. rewrite (zv_value _ _ _ _ I Hx), (zv_value _ _ _ _ I Hy). symmetry. exact EQ. }
  intros [] _. cbn [app]. apply h_ret; [auto|inc|].
  intros e [[[[HP RQ] RM] RS] RZ] h x y Hx Hy Bx By. destruct RQ as (v & Lv & RV & EV). rewrite Lqv in Lv. destruct (list2 v Lv) as [v' ->].
  pose proof (zv_hon _ _ _ _ Hx) as HE. assert (RV1 : red2 h e q v') by (apply RV; auto). destruct (red2_zv _ _ _ _ RV1) as (z & Hz & Bz & Ez).
  exists v'. split; auto. split.
  - apply x2_sub0. rewrite <- Ez, <- of2_mul, <- of2_sub. apply (RZ h); [apply RS; auto|]. apply gsub_le; auto. apply gmul_le; auto. now apply small_gle.
  - intros Hh. rewrite (EV (HE Hh)). unfold qv. now rewrite (zv_value _ _ _ _ Hh Hx), (zv_value _ _ _ _ Hh Hy).
Qed.
Lemma x2_oppx (x : x2 m) : x2_add (x2_opp x) x = x2_0. Proof. destruct x as [a b]. unfold x2_add, x2_opp, x2_0. cbn [fst snd]. f_equal; ring. Qed.
Lemma x2_add0 (x y : x2 m) : x2_add x y = x2_0 -> x = x2_opp y.
Proof. intros E. apply x2_sub0. destruct x as [a b], y as [c d]. revert E. unfold x2_sub, x2_add, x2_opp, x2_0. cbn [fst snd]. intros E. pose proof (f_equal fst E) as E1. pose proof (f_equal snd E) as E2. cbn [fst snd] in E1, E2. f_equal; [rewrite <- E1|rewrite <- E2]; ring. Qed.
Lemma gadd_le (x y : gz) A B : gle x A -> gle y B -> gle (gadd x y) (A + B).
Proof. unfold gle, gadd. cbn [fst snd]. lia. Qed.
Lemma q_neg_divide L (Pre : env -> Prop) (Hon : Prop) (a b : vec) ba bb A B (hint : list Fm -> list Fm -> list Fm) :
  vpre L a -> vpre L b -> visk a ba -> visk b bb -> length a = 2%nat -> length b = 2%nat ->
  room (Nat.max (lg + n + bb + 1) ba + 1) -> 8 * (2 * (M2 * B) + A) < W -> (forall u v, length u = 2%nat -> length v = 2%nat -> length (hint u v) = 2%nat) ->
  (Hon -> Pre hval -> exists x y w, zv True hval a x /\ zv True hval b y /\ gle x A /\ gle y B /\ hint [fst (of2 x); snd (of2 x)] [fst (of2 y); snd (of2 y)] = [fst w; snd w] /\ x2_mul w (of2 y) = x2_opp (of2 x)) ->
  hcalc L Pre Hon (ext_neg_divide_unsafe lb m ch 2 (fp2_mul_no_carry ch) hint a b) (fun o => length o = 2%nat /\ vism o)
    (fun e o => forall h x y, zv h e a x -> zv h e b y -> gle x A -> gle y B -> 
       exists w, red2 h e o w /\ x2_mul w (of2 y) = x2_opp (of2 x) /\ (h -> [fst w; snd w] = hint [fst (of2 x); snd (of2 x)] [fst (of2 y); snd (of2 y)])) vcells.
Proof.
  intros Ca Cb Ka Kb La Lb Hr HB HL HH. unfold ext_neg_divide_unsafe. rewrite !(value_ok lb m Hp Hlb Hlb2 Hm ch n k HN), La, Lb. cbn [Nat.eqb].
  do 2 (eapply h_lift_bind; [eauto|intros ? EQ; injection EQ as <-]).
  set (qv := hint _ _). assert (Lqv : length qv = 2%nat) by (apply HL; rewrite map_length; auto).
  eapply h_bind; [apply (v_load_private lb m Hp Hlb Hlb2 Hm ch n k HN HK)|]. cbv beta. intros q [Lq Kq]. rewrite Lqv in Lq.
  pose proof (vism_visk n k q Kq) as Kq'.
  eapply h_bind; [apply (q_mul _ _ _ q b n bb); auto; inc|]. cbv beta. intros qb [Lqb Kqb]. cbn [app].
  eapply h_bind; [apply (q_add _ _ _ qb a (lg + n + bb + 1) ba); auto; inc|]. cbv beta. intros c [Lc Kc]. cbn [app].
  eapply h_bind; [apply (q_check0 _ _ _ c (Nat.max (lg + n + bb + 1) ba + 1) (2 * (M2 * B) + A)); [inc|exact Kc|exact Hr|exact HB|]|]; cbv beta.
  { intros Hh [[[HP RQ] RM] RS]. destruct (HH Hh HP) as (x & y & w & Hx & Hy & Bx & By & EQ & E). destruct RQ as (v & Lv & RV & EV). rewrite Lqv in Lv. destruct (list2 v Lv) as [v' ->].
    assert (RV1 : red2 True hval q v') by (apply RV; auto). destruct (red2_zv _ _ _ _ RV1) as (z & Hz & Bz & Ez).
    exists (gadd (gmul z y) x). split; [apply RS; auto|]. split; [apply gadd_le; auto; apply gmul_le; auto; now apply small_gle|].
    rewrite of2_add, of2_mul, Ez. replace v' with w; [rewrite E; apply x2_oppx|]. apply list2_inj. rewrite EV by auto. unfold qv. rewrite (zv_value _ _ _ _ I Hx), (zv_value _ _ _ _ I Hy). symmetry. exact EQ. }
  intros [] _. cbn [app]. apply h_ret; [auto|inc|].
  intros e [[[[HP RQ] RM] RS] RZ] h x y Hx Hy Bx By. destruct RQ as (v & Lv & RV & EV). rewrite Lqv in Lv. destruct (list2 v Lv) as [v' ->].
  pose proof (zv_hon _ _ _ _ Hx) as HE. assert (RV1 : red2 h e q v') by (apply RV; auto). destruct (red2_zv _ _ _ _ RV1) as (z & Hz & Bz & Ez).
  exists v'. split; auto. split.
  - apply x2_add0. rewrite <- Ez, <- of2_mul, <- of2_add. apply (RZ h); [apply RS; auto|]. apply gadd_le; auto. apply gmul_le; auto. now apply small_gle.
  - intros Hh. rewrite (EV (HE Hh)). unfold qv. now rewrite (zv_value _ _ _ _ Hh Hx), (zv_value _ _ _ _ Hh Hy).
Qed.
End Gauss.
