(** cyclotomic_decompress (FinalExp.v) in terms of elements of Fp2. *)
From Coq Require Import ZArith Znumtheory Lia List Bool Ring.
From Verif Require Import Field Spec Context ContextProofs Utils Logic Gate GateProofs ChainProofs IPProofs BitProofs PowProofs IPComp Derived
  Range RangeProofs RangeProofs2 RangeProofs3 RegionGets Calc CalcH RegionPrev RegionLast BigPrims BigNum BigInt BigSpec BigOps BigSel BigCmp BigSub BigCarry BigMod BigCrtNum BigCrt FpChip FpProofs FpProofs2 FpProofs3 FpField FpField2 FpField3 FieldExt ExtSpec ExtProofs ExtProofs2 ExtProofs3 ExtProofs4 ExtProofs5 FinalExp GaussOps RingPow CycSpec FinalProofs.
Import ListNotations.
Local Open Scope Z_scope.

Lemma gadd_le x y A B : gle x A -> gle y B -> gle (gadd x y) (A + B). Proof. unfold gle, gadd. cbn [fst snd]. lia. Qed.
Lemma gscale_le x s A : 0 <= A -> gle x A -> gle (gscale x s) (Z.abs s * A). Proof. unfold gle, gscale. cbn [fst snd]. intros HA [H1 H2]. rewrite !Z.abs_mul. split; rewrite Z.mul_comm; apply Z.mul_le_mono_nonneg_l; lia. Qed.
Lemma gle_weak x A B : gle x A -> A <= B -> gle x B. Proof. unfold gle. lia. Qed.
(** products of canonical elements: [|Re| <= M^2], [|Im| <= 2 M^2] *)
Definition gle2 (x : gz) (A B : Z) : Prop := Z.abs (fst x) <= A /\ Z.abs (snd x) <= B.
Definition small (M : Z) (x : gz) : Prop := 0 <= fst x < M /\ 0 <= snd x < M.
Lemma smul2 M (x y : gz) : small M x -> small M y -> gle2 (gmul x y) (M * M) (2 * (M * M)).
Proof. intros [X0 X1] [Y0 Y1]. unfold gle2, gmul. cbn [fst snd]. pose proof (sm_mul M _ _ X0 Y0). pose proof (sm_mul M _ _ X1 Y1). pose proof (sm_mul M _ _ X0 Y1). pose proof (sm_mul M _ _ X1 Y0). lia. Qed.
Lemma g2_add x y A B C D : gle2 x A B -> gle2 y C D -> gle2 (gadd x y) (A + C) (B + D). Proof. unfold gle2, gadd. cbn [fst snd]. lia. Qed.
Lemma g2_sub x y A B C D : gle2 x A B -> gle2 y C D -> gle2 (gsub x y) (A + C) (B + D). Proof. unfold gle2, gsub. cbn [fst snd]. lia. Qed.
Lemma g2_scale x s A B : 0 <= A -> 0 <= B -> gle2 x A B -> gle2 (gscale x s) (A * Z.abs s) (B * Z.abs s).
Proof. unfold gle2, gscale. cbn [fst snd]. intros HA HB [H1 H2]. rewrite !Z.abs_mul. split; apply Z.mul_le_mono_nonneg_r; lia. Qed.
Lemma g2_xi x s A B : gle2 x A B -> gle2 (gmul x (s, 1)) (A * Z.abs s + B) (B * Z.abs s + A).
Proof. unfold gle2, gmul. cbn [fst snd]. intros [H1 H2]. assert (Z.abs (fst x * s) <= A * Z.abs s) by (rewrite Z.abs_mul; apply Z.mul_le_mono_nonneg_r; lia). assert (Z.abs (snd x * s) <= B * Z.abs s) by (rewrite Z.abs_mul; apply Z.mul_le_mono_nonneg_r; lia). lia. Qed.
Lemma g2_gle x A B C : gle2 x A B -> A <= C -> B <= C -> gle x C. Proof. unfold gle2, gle. lia. Qed.
Lemma small_gle2 M x : small M x -> gle2 x M M. Proof. unfold gle2, small. lia. Qed.
Section Final.
Context {p : positive}.
Notation Fp := (F p).
Notation AV := (AV p).
Notation crt := (crt p).
Notation vec := (list crt).
Variables (lb : nat) (m : positive).
Notation env := (env (p:=p)).
Notation hcalc := (hcalc lb).
Hypothesis Hp : prime (Z.pos p).
Hypothesis Hlb : (1 <= lb < 64)%nat.
Hypothesis Hlb2 : (2 * lb <= CAPACITY p)%nat.
Hypothesis Hm : 1 < Z.pos m.
Add Ring Fring : (F_ring p) (morphism (F_morph p), constants [Fcst]).
Add Ring Fringm : (F_ring m) (morphism (F_morph m), constants [Fcst]).
Add Ring X2ringd : (x2_ring (m:=m)).
Variables (ch : fpchip p) (n k : nat).
Hypothesis HN : fpchip_new m n k = Some ch.
Hypothesis HK : fp_params (p:=p) lb m n k.
Notation mz := (Z.pos m).
Notation Fm := (F m).
Notation M2 := (2 ^ Z.of_nat (bits mz)).
Notation W := (2 ^ Z.of_nat (n * k + NUM_BITS p)).
Notation frep := (frep (p:=p) m n).
Notation fred := (fred (p:=p) m n).
Notation isk := (isk k).
Notation lg := (log2_ceil (Z.of_nat k)).
Notation islk := (islk k).
Notation room := (room (p:=p) lb n k).
Notation visk := (visk k).
Notation vism := (vism n k).
Notation vrep := (vrep m n).
Notation vred := (vred m n).
Notation red2 := (red2 (p:=p) m n).
Notation of2 := (of2 m).
Notation zv := (zv n).
Variable (xi0 : Z) (hint2 : list Fm -> list Fm -> list Fm).
Hypothesis Hh2 : forall u v, length u = 2%nat -> length v = 2%nat -> length (hint2 u v) = 2%nat.
Hypothesis Hxi1 : 1 <= Z.abs xi0.
Notation lx := (Nat.max (log2_ceil (Z.abs xi0)) (log2_ceil (Z.abs (xi0 + 1)))).
Hypothesis Hxi : - 2 ^ 63 < xi0 < 2 ^ 63 - 1.
Hypothesis Hroom : room (lg + n + n + 9 + lx + 1).
Hypothesis HB : 8 * ((12 * Z.abs xi0 + 12) * (M2 * M2) + 2 * M2) < W.
Notation xi := (xi (m:=m) xi0).

Notation Q_add := (q_add lb m Hlb Hlb2 n k).
Notation Q_sub := (q_sub lb m Hlb Hlb2 n k).
Notation Q_smul := (q_smul lb m Hlb Hlb2 n k).
Notation Q_smul_add := (q_smul_add lb m Hlb Hlb2 n k).
Notation Q_mul := (q_mul lb m Hp Hlb Hlb2 Hm ch n k HN HK).
Notation Q_w6 := (q_w6 lb m Hlb Hlb2 n k).
Notation Q_select := (q_select lb m Hp Hlb Hlb2 n k).
Notation Q_carry := (q_carry lb m Hp Hlb Hlb2 Hm ch n k HN HK).
Notation Q_divide := (q_divide lb m Hp Hlb Hlb2 Hm ch n k HN HK).
Notation Q_plus_one := (q_plus_one lb m Hlb Hlb2 ch n k HN HK).

Ltac inc1 := first [ assumption | apply incl_refl | (apply incl_appl; inc1) | (apply incl_appr; inc1) ].
Ltac inc := cbn [app]; first [ assumption | (unfold cpre, vpre; inc1) | (eapply cpre_incl; [eassumption|inc1]) | (eapply vpre_incl; [eassumption|inc1]) ].
Tactic Notation "qb" uconstr(lem) := eapply h_bind; [eapply lem; try inc; try eassumption; try lia|]; cbv beta; [..|let c := fresh "c" in let L := fresh "Lc" in let K := fresh "K" in intros c [L K]; cbn [app]].
Ltac zf1 :=
  match goal with
  | H : _ /\ _ |- _ => lazymatch type of H with (_ <= _ < _)%nat => fail | (_ <= _ < _)%Z => fail | _ => destruct H end
  | H : forall h x y, zv h ?e ?a x -> zv h ?e ?b y -> zv h ?e ?c _, A : zv ?h ?e ?a ?x, B : zv ?h ?e ?b ?y |- _ => specialize (H h x y A B); cbv beta in H
  | H : forall h x y, zv h ?e ?a x -> zv h ?e ?a y -> zv h ?e ?c _, A : zv ?h ?e ?a ?x |- _ => specialize (H h x x A A); cbv beta in H
  | H : forall h x, zv h ?e ?a x -> zv h ?e ?c _, A : zv ?h ?e ?a ?x |- _ => specialize (H h x A); cbv beta in H
  end.
Declare Scope x2_scope.
Notation "a + b" := (x2_add a b) : x2_scope.
Notation "a - b" := (x2_sub a b) : x2_scope.
Notation "a * b" := (x2_mul a b) : x2_scope.
Delimit Scope x2_scope with X.
Notation two := (x2_add (x2_1 (m:=m)) x2_1).
Notation three := (x2_add (x2_add (x2_1 (m:=m)) x2_1) x2_1).

Notation reds := (reds (p:=p) m n).
Notation viss := (viss (p:=p) n k).
Notation prs x := [fst (x : x2 m); snd (x : x2 m)].
Definition num1 (x3 x4 x5 : x2 m) : x2 m := (xi * (x5 * x5) + three * (x4 * x4) - two * x3)%X.
Definition den1 (x2 : x2 m) : ExtSpec.x2 m := (two * two * x2)%X.
Definition num0 (x4 x5 : x2 m) : x2 m := (two * (x4 * x5))%X.
Definition dec_y0 (x2 x3 x4 x5 y1 : x2 m) : ExtSpec.x2 m := (xi * (two * (y1 * y1) + x2 * x5 - three * (x3 * x4)) + x2_1)%X.
Lemma x2_is0_forallb (x : x2 m) : forallb Fis0 (prs x) = x2_is0 x. Proof. cbn [forallb]. now rewrite andb_true_r. Qed.
Lemma x2_is0_true (x : x2 m) : x2_is0 x = true -> x = x2_0.
Proof. destruct x as [a b]. unfold x2_is0. cbn [fst snd]. rewrite andb_true_iff, !Fis0_true. now intros [-> ->]. Qed.

Ltac inm := first [left; reflexivity | (right; inm) | (apply in_or_app; left; inm) | (apply in_or_app; right; inm)].
Lemma l_decompress (L : list AV) (Pre : env -> Prop) (Hon : Prop) (g2 g3 g4 g5 : vec) : viss [g2; g3; g4; g5] -> incl (flat_map vcells [g2; g3; g4; g5]) L -> (Hon -> zcap (p:=p) n k) ->
  (Hon -> Pre hval -> exists x2 x3 x4 x5 w1 w0, reds True hval [g2; g3; g4; g5] [x2; x3; x4; x5] /\
     hint2 (prs (num1 x3 x4 x5)) (prs (den1 x2)) = prs w1 /\ (w1 * den1 x2)%X = num1 x3 x4 x5 /\ hint2 (prs (num0 x4 x5)) (prs x3) = prs w0 /\ (w0 * x3)%X = num0 x4 x5) ->
  hcalc L Pre Hon (cyclotomic_decompress lb m ch xi0 hint2 [g2; g3; g4; g5]) (fun o => length o = 12%nat /\ vism o)
    (fun e o => forall h x2 x3 x4 x5, reds h e [g2; g3; g4; g5] [x2; x3; x4; x5] -> exists w1 w0 y1,
       (w1 * den1 x2)%X = num1 x3 x4 x5 /\ (w0 * x3)%X = num0 x4 x5 /\ y1 = (if x2_is0 x2 then w0 else w1) /\
       (h -> prs w1 = hint2 (prs (num1 x3 x4 x5)) (prs (den1 x2)) /\ prs w0 = hint2 (prs (num0 x4 x5)) (prs x3)) /\
       vred h e o (enc (m:=m) (dec_y0 x2 x3 x4 x5 y1, x2, x4, y1, x3, x5))) vcells.
Proof.
  intros V C HZ HH. assert (M2p : 0 < M2) by (apply Z.pow_pos_nonneg; lia). unfold FinalProofs.viss in V. pose proof V as V0.
  inversion V as [|? ? [L2 V2] V']; subst. inversion V' as [|? ? [L3 V3] V'']; subst. inversion V'' as [|? ? [L4 V4] V''']; subst. inversion V''' as [|? ? [L5 V5] _]; subst. clear V V' V'' V'''.
  assert (C2 : vpre L g2) by (intros x Hx; apply C; apply in_flat_map; exists g2; cbn; auto). assert (C3 : vpre L g3) by (intros x Hx; apply C; apply in_flat_map; exists g3; cbn; auto).
  assert (C4 : vpre L g4) by (intros x Hx; apply C; apply in_flat_map; exists g4; cbn; auto). assert (C5 : vpre L g5) by (intros x Hx; apply C; apply in_flat_map; exists g5; cbn; auto 6).
  pose proof (vism_visk _ _ _ V2) as W2. pose proof (vism_visk _ _ _ V3) as W3. pose proof (vism_visk _ _ _ V4) as W4. pose proof (vism_visk _ _ _ V5) as W5. clear C. unfold cyclotomic_decompress.
  assert (LG2 : log2_ceil (Z.abs 2) = 1%nat) by reflexivity. assert (LG3 : log2_ceil (Z.abs 3) = 2%nat) by reflexivity. assert (LG4 : log2_ceil (Z.abs 4) = 2%nat) by reflexivity.
  qb (Q_mul). qb (Q_w6). qb (Q_mul). qb (Q_smul). qb (Q_smul). qb (Q_add). qb (Q_sub). qb (Q_smul).
  rewrite LG2, LG3, LG4 in *.
  set (MM := M2 * M2) in *. assert (MM0 : 0 <= MM) by (unfold MM; apply Z.mul_nonneg_nonneg; lia). assert (MMM : M2 <= MM) by (unfold MM; nia).
  (* the first quotient *)
  match goal with |- CalcH.hcalc _ _ ?P _ _ _ _ _ => set (P1 := P) end.
  assert (P1P : forall e, P1 e -> Pre e) by (unfold P1; tauto).
  assert (F1 : forall e, P1 e -> forall h x2 x3 x4 x5, reds h e [g2; g3; g4; g5] [x2; x3; x4; x5] -> exists z w, 
     zv h e c5 z /\ gle z ((2 * Z.abs xi0 + 8) * MM + 2 * M2) /\ of2 z = num1 x3 x4 x5 /\ zv h e c6 w /\ gle w (4 * M2) /\ of2 w = den1 x2).
  { intros e HP h x2 x3 x4 x5 HR. unfold P1 in HP. clear P1 P1P. unfold FinalProofs.reds in HR. inversion HR as [|? ? ? ? R2 HR2]; subst. inversion HR2 as [|? ? ? ? R3 HR3]; subst. inversion HR3 as [|? ? ? ? R4 HR4]; subst. inversion HR4 as [|? ? ? ? R5 _]; subst. clear HR HR2 HR3 HR4.
    apply (red2_zv lb m Hlb Hlb2) in R2 as (z2 & Z2 & B2 & E2), R3 as (z3 & Z3 & B3 & E3), R4 as (z4 & Z4 & B4 & E4), R5 as (z5 & Z5 & B5 & E5).
    fold (small M2 z2) in B2. fold (small M2 z3) in B3. fold (small M2 z4) in B4. fold (small M2 z5) in B5.
    clear - HP Z2 Z3 Z4 Z5 B2 B3 B4 B5 E2 E3 E4 E5 M2p MM0 MMM.
    repeat zf1. eexists; eexists. split; [eassumption|]. split; [|split; [|split; [eassumption|split]]].
    - pose proof (smul2 _ _ _ B5 B5) as G5. pose proof (smul2 _ _ _ B4 B4) as G4. fold MM in G5, G4. apply (g2_xi _ xi0) in G5. apply (g2_scale _ 3) in G4; [|lia|lia]. pose proof (small_gle2 _ _ B3) as G3. apply (g2_scale _ 2) in G3; [|lia|lia].
      eapply g2_gle; [eapply g2_sub; [eapply g2_add; eassumption|eassumption]| |]; change (Z.abs 3) with 3; change (Z.abs 2) with 2; clear - M2p MM0 MMM; clearbody MM; generalize dependent M2; intros; assert (0 <= MM * Z.abs xi0) by (apply Z.mul_nonneg_nonneg; lia); lia.
    - unfold num1. repeat rewrite ?of2_add, ?of2_sub, ?of2_mul, ?of2_scale, ?of2_xi. rewrite ?E2, ?E3, ?E4, ?E5, two_ok, three_ok. ring.
    - pose proof (small_gle2 _ _ B2) as G2. apply (g2_scale _ 4) in G2; [|lia|lia]. eapply g2_gle; [eassumption| |]; change (Z.abs 4) with 4; lia.
    - unfold den1. rewrite of2_scale, E2, four_ok. ring. }
  assert (K4' : visk c5 (lg + n + n + 5 + lx)) by (eapply (visk_le lb m Hlb Hlb2); [eassumption|lia]).
  clearbody P1.
  eapply h_bind; [apply (Q_divide _ _ _ c5 c6 (lg + n + n + 5 + lx) (n + 2) ((2 * Z.abs xi0 + 8) * MM + 2 * M2) (4 * M2)); auto; try inc|]; cbv beta.
  { eapply room_le; eauto. lia. } { revert HB. fold MM. clear - Hxi1 MM0 M2p. replace (M2 * (4 * M2)) with (4 * MM) by (unfold MM; ring). clearbody MM. assert (0 <= MM * (Z.abs xi0 - 1)) by (apply Z.mul_nonneg_nonneg; lia). generalize dependent W. generalize dependent M2. intros. lia. }
  { intros Hh HP. destruct (HH Hh (P1P _ HP)) as (x2 & x3 & x4 & x5 & w1 & w0 & HR & H1 & H2 & H3 & H4). destruct (F1 hval HP True _ _ _ _ HR) as (z & w & Hz1 & Hz2 & Hz3 & Hw1 & Hw2 & Hw3). exists z, w, w1. rewrite Hz3, Hw3. auto 10. }
  intros q1 [Lq1 Kq1]. cbn [app].
  qb (Q_mul). qb (Q_smul). rewrite LG2 in *.
  (* the second quotient *)
  match goal with |- CalcH.hcalc _ _ ?P _ _ _ _ _ => set (P2 := P) end.
  assert (P2P : forall e, P2 e -> Pre e) by (unfold P2; intros e HP; apply P1P; tauto).
  pose (W1 := fun (h : Prop) e x2 x3 x4 x5 w1 => red2 h e q1 w1 /\ (w1 * den1 x2)%X = num1 x3 x4 x5 /\ (h -> prs w1 = hint2 (prs (num1 x3 x4 x5)) (prs (den1 x2)))).
  assert (F2 : forall e, P2 e -> forall h x2 x3 x4 x5, reds h e [g2; g3; g4; g5] [x2; x3; x4; x5] -> exists w1 z w, W1 h e x2 x3 x4 x5 w1 /\
     zv h e c8 z /\ gle z (4 * MM) /\ of2 z = num0 x4 x5 /\ zv h e g3 w /\ gle w M2 /\ of2 w = x3).
  { intros e HP h x2 x3 x4 x5 HR. unfold P2 in HP. clear P2 P2P. destruct HP as [[[HP1 RD] R7] R8].
    destruct (F1 e HP1 h x2 x3 x4 x5 HR) as (z1 & z1' & A1 & A2 & A3 & A4 & A5 & A6). destruct (RD h _ _ A1 A4 A2 A5) as (w1 & D1 & D2 & D3). rewrite A3, A6 in D2, D3. exists w1.
    unfold FinalProofs.reds in HR. inversion HR as [|? ? ? ? R2 HR2]; subst. inversion HR2 as [|? ? ? ? R3 HR3]; subst. inversion HR3 as [|? ? ? ? R4 HR4]; subst. inversion HR4 as [|? ? ? ? R5 _]; subst. clear HR HR2 HR3 HR4.
    apply (red2_zv lb m Hlb Hlb2) in R2 as (z2 & Z2 & B2 & E2), R3 as (z3 & Z3 & B3 & E3), R4 as (z4 & Z4 & B4 & E4), R5 as (z5 & Z5 & B5 & E5).
    fold (small M2 z2) in B2. fold (small M2 z3) in B3. fold (small M2 z4) in B4. fold (small M2 z5) in B5.
    pose proof (R7 h _ _ Z4 Z5) as R7'. pose proof (R8 h _ R7') as R8'.
    exists (gscale (gmul z4 z5) 2), z3. split; [unfold W1; auto|]. split; auto. split; [|split; [|split; [auto|split; auto]]].
    - pose proof (smul2 _ _ _ B4 B5) as G5. fold MM in G5. apply (g2_scale _ 2) in G5; [|lia|lia]. eapply g2_gle; [eassumption| |]; change (Z.abs 2) with 2; lia.
    - unfold num0. rewrite of2_scale, of2_mul, E4, E5, two_ok. ring.
    - eapply g2_gle; [apply small_gle2; eassumption| |]; lia. }
  clearbody P2.
  eapply h_bind; [apply (Q_divide _ _ _ c8 g3 (lg + n + n + 1 + 1) n (4 * MM) M2); auto; try inc|]; cbv beta.
  { eapply room_le; eauto. lia. } { revert HB. clear - Hxi1 MM0 M2p. replace (M2 * M2) with MM by reflexivity. clearbody MM. assert (0 <= MM * (Z.abs xi0 - 1)) by (apply Z.mul_nonneg_nonneg; lia). generalize dependent W. generalize dependent M2. intros. lia. }
  { intros Hh HP. destruct (HH Hh (P2P _ HP)) as (x2 & x3 & x4 & x5 & w1 & w0 & HR & H1 & H2 & H3 & H4). destruct (F2 hval HP True _ _ _ _ HR) as (w1' & z & w & _ & Hz1 & Hz2 & Hz3 & Hw1 & Hw2 & Hw3). exists z, w, w0. rewrite Hz3, Hw3. auto 10. }
  intros q0 [Lq0 Kq0]. cbn [app].
  eapply h_bind; [apply (v_is_zero lb m Hp Hlb Hlb2 Hm ch n k HN HK _ _ _ g2); auto; try inc; [now destruct g2|]|]; cbv beta.
  { intros Hh [HP _]. destruct (HH Hh (P2P _ HP)) as (x2 & x3 & x4 & x5 & w1 & w0 & HR & _). inversion HR; subst. eexists. eassumption. }
  intros sel _. cbn [app]. 
  eapply h_bind; [apply (v_select lb m Hp Hlb Hlb2 n k _ _ _ q0 q1 sel); auto; try inc; [left; reflexivity|unfold vlen2; congruence]|]; cbv beta.
  intros g1 (_ & Lg1 & Kg1). rewrite Lq0 in Lg1. pose proof (vism_visk _ _ _ Kg1) as Wg1. cbn [app].
  qb (Q_mul). qb (Q_smul). qb (Q_mul). qb (Q_mul). qb (Q_smul). qb (Q_add). qb (Q_select). { inm. }
  qb (Q_sub). qb (Q_w6). qb (Q_plus_one). { destruct HK as [(? & _) _]; lia. } rewrite LG2, LG3 in *.
  (* the remaining coordinate *)
  set (B := (12 * Z.abs xi0 + 12) * MM + 2 * M2) in *.
  match goal with |- CalcH.hcalc _ _ ?P _ _ _ _ _ => set (P3 := P) end.
  assert (P3P : forall e, P3 e -> Pre e) by (unfold P3; intros e HP; apply P2P; tauto).
  assert (F3 : forall e, P3 e -> forall h x2 x3 x4 x5, reds h e [g2; g3; g4; g5] [x2; x3; x4; x5] -> exists w1 w0 y1 z, 
      (w1 * den1 x2)%X = num1 x3 x4 x5 /\ (w0 * x3)%X = num0 x4 x5 /\ y1 = (if x2_is0 x2 then w0 else w1) /\
       (h -> prs w1 = hint2 (prs (num1 x3 x4 x5)) (prs (den1 x2)) /\ prs w0 = hint2 (prs (num0 x4 x5)) (prs x3)) /\ red2 h e g1 y1 /\
       zv h e c18 z /\ gle z B /\ of2 z = dec_y0 x2 x3 x4 x5 y1).
  { intros e HP h x2 x3 x4 x5 HR. unfold P3 in HP. clear P3 P3P. destruct HP as [[[[[[[[[[[[[HP2 RD] RZ] RS] R9] R10] R11] R12] R13] R14] R15] R16] R17] R18].
    destruct (F2 e HP2 h x2 x3 x4 x5 HR) as (w1 & z1 & z1' & (D1 & D2 & D3) & A1 & A2 & A3 & A4 & A5 & A6). destruct (RD h _ _ A1 A4 A2 A5) as (w0 & D1' & D2' & D3'). rewrite A3, A6 in D2', D3'.
    unfold FinalProofs.reds in HR. inversion HR as [|? ? ? ? R2 HR2]; subst. inversion HR2 as [|? ? ? ? R3 HR3]; subst. inversion HR3 as [|? ? ? ? R4 HR4]; subst. inversion HR4 as [|? ? ? ? R5 _]; subst. clear HR HR2 HR3 HR4.
    destruct (RZ h _ R2) as [_ ES]. rewrite x2_is0_forallb in ES.
    pose proof (RS h _ _ _ ES D1' D1) as RG.
    exists w1, w0, (if x2_is0 x2 then w0 else w1).
    assert (RG' : red2 h e g1 (if x2_is0 x2 then w0 else w1)) by (unfold ExtProofs3.red2; destruct (x2_is0 x2); exact RG). clear RG. set (y1 := if x2_is0 x2 then w0 else w1) in *. clearbody y1. pose proof RG' as RG.
    pose proof (x2_is0_true x2) as X0.
    apply (red2_zv lb m Hlb Hlb2) in R2 as (z2 & Z2 & B2 & E2), R3 as (z3 & Z3 & B3 & E3), R4 as (z4 & Z4 & B4 & E4), R5 as (z5 & Z5 & B5 & E5), RG as (zg & Zg & Bg & Eg).
    fold (small M2 z2) in B2. fold (small M2 z3) in B3. fold (small M2 z4) in B4. fold (small M2 z5) in B5. fold (small M2 zg) in Bg.
    pose proof (R9 h _ _ Zg Zg) as Y9. pose proof (R10 h _ Y9) as Y10. pose proof (R11 h _ _ Z2 Z5) as Y11. pose proof (R12 h _ _ Z3 Z4) as Y12. pose proof (R13 h _ Y12) as Y13. pose proof (R14 h _ _ Y10 Y11) as Y14. 
    pose proof (R15 h _ _ _ ES Y10 Y14) as Y15. pose proof (R16 h _ _ Y15 Y13) as Y16. pose proof (R17 h _ Y16) as Y17. pose proof (R18 h _ Y17) as Y18.
    eexists. split; [exact D2|]. split; [exact D2'|]. split; [reflexivity|]. split; [auto|]. split; [auto|]. split; [exact Y18|]. split.
    - pose proof (smul2 _ _ _ Bg Bg) as Gg. pose proof (smul2 _ _ _ B2 B5) as G25. pose proof (smul2 _ _ _ B3 B4) as G34. fold MM in Gg, G25, G34. apply (g2_scale _ 2) in Gg; [|lia|lia]. apply (g2_scale _ 3) in G34; [|lia|lia].
      pose proof (g2_add _ _ _ _ _ _ Gg G25) as GA.
      assert (GS : gle2 (if x2_is0 x2 then gscale (gmul zg zg) 2 else gadd (gscale (gmul zg zg) 2) (gmul z2 z5)) (MM * Z.abs 2 + MM) (2 * MM * Z.abs 2 + 2 * MM)).
      { destruct (x2_is0 x2); auto. unfold gle2 in *. lia. }
      pose proof (g2_sub _ _ _ _ _ _ GS G34) as GT. apply (g2_xi _ xi0) in GT. 
      assert (G1 : gle2 (1, 0) 1 0) by (unfold gle2; cbn; lia). pose proof (g2_add _ _ _ _ _ _ GT G1) as GF.
      eapply g2_gle; [exact GF| |]; change (Z.abs 3) with 3; change (Z.abs 2) with 2; unfold B; clear - M2p MM0 MMM; clearbody MM; generalize dependent M2; intros; assert (0 <= MM * Z.abs xi0) by (apply Z.mul_nonneg_nonneg; lia); lia.
    - assert (EQ : of2 (if x2_is0 x2 then gscale (gmul zg zg) 2 else gadd (gscale (gmul zg zg) 2) (gmul z2 z5)) = (two * (y1 * y1) + x2 * x5)%X).
      { destruct (x2_is0 x2) eqn:EX; repeat rewrite ?of2_add, ?of2_sub, ?of2_mul, ?of2_scale, ?of2_xi; rewrite ?E2, ?E5, ?Eg, two_ok; [rewrite (X0 eq_refl)|]; ring. }
      unfold dec_y0. rewrite of2_add, of2_mul, of2_sub, EQ, of2_xi, of2_scale, of2_mul, E3, E4, three_ok. change (of2 (1, 0)) with (x2_1 (m:=m)). ring. }
  clearbody P3.
  assert (Kf : visk c18 (lg + n + n + 9 + lx)) by (eapply (visk_le lb m Hlb Hlb2); [eassumption|lia]).
  eapply h_bind; [apply (Q_carry _ _ _ c18 (lg + n + n + 9 + lx)); auto; try inc|]; cbv beta.
  { eapply room_le; eauto. lia. }
  { intros Hh HP. destruct (HH Hh (P3P _ HP)) as (x2 & x3 & x4 & x5 & _ & _ & HR & _). destruct (F3 hval HP True _ _ _ _ HR) as (w1 & w0 & y1 & z & _ & _ & _ & _ & _ & Hz1 & Hz2 & _). exists z, B. auto. }
  intros g0 [Lg0 Kg0]. cbn [app].
  eapply h_post; [apply (l_coeffs lb m Hlb Hlb2 n k xi0 HB _ _ _ [g0; g2; g4; g1; g3; g5])| | |]; cbv beta.
  - repeat (apply Forall_cons; [auto|]). constructor.
  - cbn [flat_map]. rewrite app_nil_r. repeat apply incl_app; try inc1; inc.
  - intros o [Lo Ko]. auto.
  - intros e o _ [HP RC] RF h x2 x3 x4 x5 HR. destruct (F3 e HP h _ _ _ _ HR) as (w1 & w0 & y1 & z & H1 & H2 & H3 & H4 & H5 & H6 & H7 & H8). exists w1, w0, y1. do 4 (split; [assumption|]).
    pose proof (RC h z B H6 H7 HB) as R0. rewrite H8 in R0.
    apply (RF h [dec_y0 x2 x3 x4 x5 y1; x2; x4; y1; x3; x5]). unfold FinalProofs.reds in *. inversion HR as [|? ? ? ? R2 HR2]; subst. inversion HR2 as [|? ? ? ? R3 HR3]; subst. inversion HR3 as [|? ? ? ? R4 HR4]; subst. inversion HR4 as [|? ? ? ? R5 _]; subst.
    repeat (apply Forall2_cons; [assumption|]). constructor.
  - intros o _. apply incl_appl, incl_refl.
Qed.
End Final.
