(** The operations of EccG2.v on the values their points stand for. *)
From Coq Require Import ZArith NArith Znumtheory Lia List Bool Ring.
From Verif Require Import Field Spec Context ContextProofs Utils Logic Gate GateProofs ChainProofs IPProofs BitProofs PowProofs IPComp Derived
  Range RangeProofs RangeProofs2 RangeProofs3 RegionGets Calc CalcH RegionPrev RegionLast BigPrims BigNum BigInt BigSpec BigOps BigSel BigCmp BigSub BigCarry BigMod BigCrtNum BigCrt FpChip FpProofs FpProofs2 FpProofs3 FpField FpField2 FpField3 FieldExt ExtSpec ExtSpec2 ExtProofs ExtProofs2 ExtProofs3 ExtProofs4 ExtProofs5 FinalExp GaussOps RingPow CycSpec FrobSpec Cyclo FinalProofs FinalProofs2 FinalProofs3 FinalHigh Ecc MillerSpec Pairing PairOps EccG2.
Import ListNotations.
Local Open Scope Z_scope.

Section Pair.
Context {p : positive}.
Notation Fp := (F p).
Notation AV := (AV p).
Notation crt := (crt p).
Notation vec := (list crt).
Variables (lb : nat) (m : positive).
Notation env := (env (p:=p)).
Notation hcalc := (hcalc lb).
Hypothesis Hp : prime (Z.pos p).
Hypothesis Hlb : (1 <= lb < 64)%nat.
Hypothesis Hlb2 : (2 * lb <= CAPACITY p)%nat.
Hypothesis Hm : 1 < Z.pos m.
Add Ring Fring : (F_ring p) (morphism (F_morph p), constants [Fcst]).
Add Ring Fringm : (F_ring m) (morphism (F_morph m), constants [Fcst]).
Add Ring X2ringd : (x2_ring (m:=m)).
Variables (ch : fpchip p) (n k : nat).
Hypothesis HN : fpchip_new m n k = Some ch.
Hypothesis HK : fp_params (p:=p) lb m n k.
Notation mz := (Z.pos m).
Notation Fm := (F m).
Notation M2 := (2 ^ Z.of_nat (bits mz)).
Notation W := (2 ^ Z.of_nat (n * k + NUM_BITS p)).
Notation frep := (frep (p:=p) m n).
Notation fred := (fred (p:=p) m n).
Notation isk := (isk k).
Notation lg := (log2_ceil (Z.of_nat k)).
Notation islk := (islk k).
Notation room := (room (p:=p) lb n k).
Notation visk := (visk k).
Notation vism := (vism n k).
Notation vrep := (vrep m n).
Notation vred := (vred m n).
Notation red2 := (red2 (p:=p) m n).
Notation of2 := (of2 m).
Notation zv := (zv n).
Variable (xi0 : Z).
Hypothesis Hxi1 : 1 <= Z.abs xi0.
Notation lx := (Nat.max (log2_ceil (Z.abs xi0)) (log2_ceil (Z.abs (xi0 + 1)))).
Hypothesis Hxi : - 2 ^ 63 < xi0 < 2 ^ 63 - 1.
Hypothesis Hroom : room (lg + n + n + 9 + lx + 1).
Hypothesis HB : 8 * ((12 * Z.abs xi0 + 12) * (M2 * M2) + 2 * M2) < W.
Notation xi := (xi (m:=m) xi0).

Notation Q_add := (q_add lb m Hlb Hlb2 n k).
Notation Q_sub := (q_sub lb m Hlb Hlb2 n k).
Notation Q_smul := (q_smul lb m Hlb Hlb2 n k).
Notation Q_smul_add := (q_smul_add lb m Hlb Hlb2 n k).
Notation Q_mul := (q_mul lb m Hp Hlb Hlb2 Hm ch n k HN HK).
Notation Q_w6 := (q_w6 lb m Hlb Hlb2 n k).
Notation Q_select := (q_select lb m Hp Hlb Hlb2 n k).
Notation Q_carry := (q_carry lb m Hp Hlb Hlb2 Hm ch n k HN HK).
Notation Q_divide := (q_divide lb m Hp Hlb Hlb2 Hm ch n k HN HK).
Notation Q_plus_one := (q_plus_one lb m Hlb Hlb2 ch n k HN HK).

Ltac inc1 := first [ assumption | apply incl_refl | (apply incl_appl; inc1) | (apply incl_appr; inc1) ].
Ltac inc := cbn [app]; first [ assumption | (unfold cpre, vpre; inc1) | (eapply cpre_incl; [eassumption|inc1]) | (eapply vpre_incl; [eassumption|inc1]) ].
Tactic Notation "qb" uconstr(lem) := eapply h_bind; [eapply lem; try inc; try eassumption; try lia|]; cbv beta; [..|let c := fresh "c" in let L := fresh "Lc" in let K := fresh "K" in intros c [L K]; cbn [app]].
Ltac zf1 :=
  match goal with
  | H : _ /\ _ |- _ => lazymatch type of H with (_ <= _ < _)%nat => fail | (_ <= _ < _)%Z => fail | _ => destruct H end
  | H : forall h x y, zv h ?e ?a x -> zv h ?e ?b y -> zv h ?e ?c _, A : zv ?h ?e ?a ?x, B : zv ?h ?e ?b ?y |- _ => specialize (H h x y A B); cbv beta in H
  | H : forall h x y, zv h ?e ?a x -> zv h ?e ?a y -> zv h ?e ?c _, A : zv ?h ?e ?a ?x |- _ => specialize (H h x x A A); cbv beta in H
  | H : forall h x, zv h ?e ?a x -> zv h ?e ?c _, A : zv ?h ?e ?a ?x |- _ => specialize (H h x A); cbv beta in H
  end.
Declare Scope x2_scope.
Notation "a + b" := (x2_add a b) : x2_scope.
Notation "a - b" := (x2_sub a b) : x2_scope.
Notation "a * b" := (x2_mul a b) : x2_scope.
Delimit Scope x2_scope with X.
Notation two := (x2_add (x2_1 (m:=m)) x2_1).
Notation three := (x2_add (x2_add (x2_1 (m:=m)) x2_1) x2_1).

Notation reds := (reds (p:=p) m n).
Notation viss := (viss (p:=p) n k).
Notation prs x := [fst (x : x2 m); snd (x : x2 m)].


Variables (hint2 hint12 : list Fm -> list Fm -> list Fm) (ftab : list (x2 m)).
Hypothesis Hmp : prime (Z.pos m).
Hypothesis H3 : Z.pos m mod 4 = 3.
Hypothesis H6 : Z.pos m mod 6 = 1.
Hypothesis Htab : forall j, (j < 12)%nat -> nth_error ftab j = Some (gam (m:=m) xi0 j).
Hypothesis Hz6 : primitive6 (m:=m) xi0.
Notation q := (N.pos m).
Notation w6 := (w6 (m:=m)).
Notation wmul := (w6_mul (m:=m) xi0).
Notation pw := (npow (w6_1 (m:=m)) wmul).
Notation WR := (w6_ring (m:=m) xi0).
Notation cyc := (cyc (m:=m) xi0).
Add Ring W6ringh : WR.
Notation wred := (wred m n).
Notation ok12 := (ok12 n k).
Notation unit12 := (unit12 m xi0).
Hypothesis Hh2 : forall x y : x2 m, hint2 (prs x) (prs y) = prs (x2_mul x (x2_inv y)).
Notation SZ := (SZ m n).
Notation SR := (SR m n).
Notation SF := (SF m n).
Notation S_SZ := (SR_SZ lb m Hlb Hlb2 n).
Notation S_add := (s_add lb m Hlb Hlb2 n k xi0 HB).
Notation S_mul := (s_mul lb m Hp Hlb Hlb2 Hm ch n k HN HK).
Notation S_w6 := (s_w6 lb m Hlb Hlb2 n k xi0 Hxi1 Hxi HB).
Notation S_carry := (s_carry lb m Hp Hlb Hlb2 Hm ch n k HN HK xi0 Hroom HB).
Notation g2pt := (g2pt p).
Notation ecpt := (ecpt p).
Notation pt2 := (pt2 (m:=m)).
Notation gred := (gred m n).
Notation okg := (okg n k).
Notation pred1 := (pred1 m n).
Notation okp := (okp n k).
Notation S_sub := (s_sub lb m Hlb Hlb2 n k).
Notation S_divi := (x2_div m Hmp H3).
Notation L2_mul := (l2_mul lb m Hp Hlb Hlb2 Hm ch n k HN HK xi0 Hroom HB).
Notation vcan := (vcan (p:=p) m n).

(** a point whose x-coordinate is canonical: a [StrictEcPoint] *)
Definition gcanx (h : Prop) (e : env) (P : g2pt) (A : pt2) : Prop := vcan h e (gx P) (prs (fst A)).
Definition gstr (h : Prop) (e : env) (P : g2pt) (A : pt2) : Prop := gred h e P A /\ gcanx h e P A.
(** an operand of a strict comparison *)
Definition gopt (s : bool) (h : Prop) (e : env) (P : g2pt) (A : pt2) : Prop := gred h e P A /\ (s = true -> gcanx h e P A).
Lemma vcan_vred h e (a : vec) v : vcan h e a v -> vred h e a v. Proof. unfold ExtProofs.vcan, ExtProofs.vred. intros V. induction V; constructor; auto. now apply (fcan_fred lb m Hlb Hlb2 Hm). Qed.
Lemma vrep_zv h e (a : vec) B u v : vrep h e a B [u; v] -> exists z, zv h e a z /\ gle z B /\ of2 z = (u, v).
Proof.
  intros H. inversion H as [|a0 ? a' ? (x & X1 & X2 & X3 & X4) H1]; subst. inversion H1 as [|a1 ? a'' ? (y & Y1 & Y2 & Y3 & Y4) H2]; subst. inversion H2; subst.
  exists (x, y). split; [exists a0, a1; split; [reflexivity|split; split; cbn [fst snd]; auto]|]. split; [split; auto|]. reflexivity.
Qed.
Section Ops.
Variables (L : list AV) (Pre : env -> Prop) (Hon : Prop).
Lemma s_addc {T : Type} (I : Prop -> env -> T -> Prop) (a : vec) ba f A (c : x2 m) : vpre L a -> visk a ba -> length a = 2%nat -> (forall e, Pre e -> SZ I e a f A) ->
  hcalc L Pre Hon (vec_add_constant_no_carry m ch a (prs c)) (fun o => length o = 2%nat /\ visk o (Nat.max ba n + 1)%nat) (fun e o => SZ I e o (fun i => (f i + c)%X) (A + M2)) vcells.
Proof.
  intros Ca Ka La Ha. eapply h_post; [apply (v_addc lb m Hp Hlb Hlb2 Hm ch n k HN HK L Pre Hon a ba (prs c)); auto| | |]; cbv beta.
  - intros o (_ & H1 & H2). split; [congruence|auto].
  - intros e o _ HP R h i Hi. destruct (Ha e HP h i Hi) as (z & Z1 & Z2 & Z3). pose proof (R h A _ (zv_vrep m n h e a z A Z1 Z3)) as RR. cbn in RR.
    destruct (vrep_zv _ _ _ _ _ _ RR) as (y & Y1 & Y2 & Y3). exists y. split; auto. split; [|auto]. rewrite Y3, <- Z2. reflexivity.
  - intros o _. apply incl_appl, incl_refl.
Qed.
Lemma l_strict (s : bool) (P : g2pt) : incl (gcells P) L -> okg P -> (Hon -> Pre hval -> exists A, gopt s True hval P A) ->
  hcalc L Pre Hon (g2_strict_x lb ch s P) (fun o => o = gx P) (fun e _ => forall h A, gopt s h e P A -> gcanx h e P A) (fun _ => []).
Proof.
  intros C [[Lx Kx] _] HH. pose proof (gcells_x _ _ C) as Cx. unfold g2_strict_x. destruct s.
  - apply h_ret; [reflexivity|intros ? []|]. intros e _ h A [_ H]. auto.
  - eapply h_post; [apply (v_enforce lb m Hp Hlb Hlb2 Hm ch n k HN HK L Pre Hon (gx P) Cx Kx)| | |]; cbv beta; auto.
    + intros Hh HP. destruct (HH Hh HP) as (A & [G _] & _). exists (prs (fst A)). exact G.
    + intros e o _ _ R h A [[G _] _]. apply (R h _ G).
    + intros o _ x [].
Qed.
Lemma veq_prs (x y : x2 m) : veqb m (prs x) (prs y) = true <-> x = y.
Proof. rewrite (veqb_eq lb m Hlb Hlb2) by reflexivity. split; [apply list2_inj|now intros ->]. Qed.
Lemma l_check (sP sQ : bool) (P Q : g2pt) : incl (gcells P) L -> incl (gcells Q) L -> okg P -> okg Q ->
  (Hon -> Pre hval -> exists A B, gopt sP True hval P A /\ gopt sQ True hval Q B /\ fst A <> fst B) ->
  hcalc L Pre Hon (g2_check_unequal lb ch sP sQ P Q) (fun _ => True) (fun e _ => forall h A B, gopt sP h e P A -> gopt sQ h e Q B -> fst A <> fst B) (fun _ => []).
Proof.
  intros C C' KP KQ HH. pose proof (gcells_x _ _ C) as Cx. pose proof (gcells_x _ _ C') as Cx'. pose proof KP as [[Lx Kx] _]. pose proof KQ as [[Lx' Kx'] _]. unfold g2_check_unequal.
  eapply h_bind; [apply (l_strict sP P C KP)|]. { intros Hh HP. destruct (HH Hh HP) as (A & B & G & _). eauto. }
  cbv beta. intros ? ->. cbn [app].
  eapply h_bind. { eapply h_sub; [apply (l_strict sQ Q C' KQ)| | |]; cbv beta; auto using incl_refl.
    - intros Hh HP. destruct (HH Hh HP) as (A & B & _ & G & _). eauto.
    - tauto. }
  cbv beta. intros ? ->. cbn [app].
  eapply h_bind; [apply (v_is_equal_unenforced lb m Hp Hlb Hlb2 n k HK _ _ Hon (gx P) (gx Q)); auto|].
  { intros _. split; [congruence|]. destruct (gx P); [discriminate|discriminate]. }
  cbv beta. intros o _. cbn [app one].
  eapply h_post; [apply (h_assert_is_const lb _ _ _ o F0)| | |]; cbv beta; auto.
  - now left.
  - intros Hh [[[HP R1] R2] R3]. destruct (HH Hh HP) as (A & B & G & G' & D).
    rewrite (R3 True _ _ (R1 True A G) (R2 True B G')). destruct (veqb m (prs (fst A)) (prs (fst B))) eqn:E; [|reflexivity]. apply veq_prs in E. contradiction.
  - intros e _ _ [[[_ R1] R2] R3] E h A B G G' D.
    rewrite (R3 h _ _ (R1 h A G) (R2 h B G')), (proj2 (veq_prs _ _) D) in E. cbn in E. now apply (F1_neq_0 _ Hp) in E.
  - intros _ _ x [].
Qed.
End Ops.
Lemma pt_add_some (A B : pt2) : fst A <> fst B -> exists S, pt_add A B = Some S.
Proof. intros N. unfold pt_add. destruct (MillerSpec.same_x (fst A) (fst B)) eqn:E; [|eauto]. apply same_x_eq in E. contradiction. Qed.
Lemma pt_add_neq (A B S : pt2) : pt_add A B = Some S -> fst A <> fst B.
Proof. intros E N. unfold pt_add in E. rewrite (proj2 (same_x_eq _ _) N) in E. discriminate. Qed.
Lemma G_add_strict L (Pre : env -> Prop) (Hon : Prop) (sP sQ : bool) (P Q : g2pt) : incl (gcells P) L -> incl (gcells Q) L -> okg P -> okg Q ->
  (Hon -> Pre hval -> exists A B, gopt sP True hval P A /\ gopt sQ True hval Q B /\ fst A <> fst B) ->
  hcalc L Pre Hon (g2_add_unequal_strict lb m ch hint2 sP sQ P Q) okg
    (fun e o => forall h (A B : pt2), gopt sP h e P A -> gopt sQ h e Q B -> exists S, pt_add A B = Some S /\ gred h e o S) gcells.
Proof.
  intros C C' KP KQ HH. unfold g2_add_unequal_strict.
  eapply h_bind; [apply (l_check L Pre Hon sP sQ P Q); auto|]. cbv beta. intros [] _. cbn [app].
  eapply h_post; [apply (G_add lb m Hp Hlb Hlb2 Hm ch n k HN HK xi0 Hxi Hroom HB hint2 Hmp H3 Hh2 _ _ Hon P Q); auto| | |]; cbv beta; auto.
  - intros Hh [HP _]. destruct (HH Hh HP) as (A & B & G & G' & D). destruct (pt_add_some A B D) as [S ES]. exists A, B, S. split; [apply G|]. split; [apply G'|auto].
  - intros e o _ [_ R1] R2 h A B G G'. destruct (pt_add_some A B (R1 h A B G G')) as [S ES]. exists S. split; auto. apply (R2 h A B S); [apply G|apply G'|auto].
  - intros o _. apply incl_appl, incl_refl.
Qed.
Lemma G_sub_strict nhint (Hnh : forall x y : x2 m, nhint (prs x) (prs y) = prs (x2_mul (x2_opp x) (x2_inv y))) L (Pre : env -> Prop) (Hon : Prop) (sP sQ : bool) (P Q : g2pt) : incl (gcells P) L -> incl (gcells Q) L -> okg P -> okg Q ->
  (Hon -> Pre hval -> exists A B, gopt sP True hval P A /\ gopt sQ True hval Q B /\ fst A <> fst B) ->
  hcalc L Pre Hon (g2_sub_unequal_strict lb m ch nhint sP sQ P Q) okg
    (fun e o => forall h (A B : pt2), gopt sP h e P A -> gopt sQ h e Q B -> exists S, pt_add A (pt_neg B) = Some S /\ gred h e o S) gcells.
Proof.
  intros C C' KP KQ HH. unfold g2_sub_unequal_strict.
  eapply h_bind; [apply (l_check L Pre Hon sP sQ P Q); auto|]. cbv beta. intros [] _. cbn [app].
  eapply h_post; [apply (G_sub lb m Hp Hlb Hlb2 Hm ch n k HN HK xi0 Hxi Hroom HB Hmp H3 nhint Hnh _ _ Hon P Q); auto| | |]; cbv beta; auto.
  - intros Hh [HP _]. destruct (HH Hh HP) as (A & B & G & G' & D). destruct (pt_add_some A (pt_neg B) D) as [S ES]. exists A, B, S. split; [apply G|]. split; [apply G'|auto].
  - intros e o _ [_ R1] R2 h A B G G'. destruct (pt_add_some A (pt_neg B) (R1 h A B G G')) as [S ES]. exists S. split; auto. apply (R2 h A B S); [apply G|apply G'|auto].
  - intros o _. apply incl_appl, incl_refl.
Qed.
Lemma G_strict L (Pre : env -> Prop) (Hon : Prop) (P : g2pt) : incl (gcells P) L -> okg P -> (Hon -> Pre hval -> exists A, gred True hval P A) ->
  hcalc L Pre Hon (g2_into_strict_point lb ch P) okg (fun e o => forall h A, gred h e P A -> gstr h e o A) gcells.
Proof.
  intros C [[Lx Kx] [Ly Ky]] HH. pose proof (gcells_x _ _ C) as Cx. pose proof (gcells_y _ _ C) as Cy. unfold g2_into_strict_point.
  eapply h_bind; [apply (v_enforce lb m Hp Hlb Hlb2 Hm ch n k HN HK L Pre Hon (gx P) Cx Kx)|].
  { intros Hh HP. destruct (HH Hh HP) as (A & G & _). exists (prs (fst A)). exact G. }
  cbv beta. intros ? ->. cbn [app]. apply h_ret.
  - split; auto.
  - intros x Hx. apply C, Hx.
  - intros e [_ R] h A [G1 G2]. split; [split; auto|]. apply (R h _ G1).
Qed.
(** ** On the curve *)
Variable b : x2 m.
Definition on2 (A : pt2) : Prop := (snd A * snd A)%X = (fst A * fst A * fst A + b)%X.
Ltac getS := let e := fresh "e" in let HP := fresh "HP" in intros e HP; repeat (destruct HP as [HP ?]);
  first [ eassumption
        | match goal with H : forall e, SR _ e ?a _ |- SZ _ _ ?a _ _ => apply (S_SZ _ e a), H end
        | match goal with H : forall e, SR _ e ?a _ |- SR _ _ ?a _ => apply H end
        | eapply (S_SZ _ e); eassumption ].
Tactic Notation "sb" uconstr(lem) := eapply h_bind; [eapply lem; try inc; try eassumption; try getS; try lia|]; cbv beta;
  [..|let c := fresh "c" in let L := fresh "Lc" in let K := fresh "K" in intros c [L K]; cbn [app]; try (pose proof (vism_visk _ _ _ K))].
Lemma G_onc L (Pre : env -> Prop) (Hon : Prop) (P : g2pt) : incl (gcells P) L -> okg P -> (Hon -> Pre hval -> exists A, gred True hval P A /\ on2 A) ->
  hcalc L Pre Hon (g2_check_is_on_curve lb m ch b P) (fun _ => True) (fun e _ => forall h A, gred h e P A -> on2 A) (fun _ => []).
Proof.
  intros C [[Lx Kx] [Ly Ky]] HH. pose proof (gcells_x _ _ C) as Cx. pose proof (gcells_y _ _ C) as Cy.
  set (I := fun (h : Prop) (e : env) (A : pt2) => gred h e P A).
  assert (BX : forall e, SR I e (gx P) fst) by (intros e h A [H _]; exact H). assert (BY : forall e, SR I e (gy P) snd) by (intros e h A [_ H]; exact H).
  pose proof (vism_visk _ _ _ Kx) as Vx. pose proof (vism_visk _ _ _ Ky) as Vy. unfold g2_check_is_on_curve.
  sb (S_mul I).
  eapply h_bind; [eapply (L2_mul _ _ Hon (gx P) (gx P)); auto; try inc|]; cbv beta. { intros Hh [HP _]. destruct (HH Hh HP) as (A & [G _] & _). exists (fst A), (fst A). auto. }
  intros xs [Lxs Kxs]. pose proof (vism_visk _ _ _ Kxs) as Vxs. cbn [app].
  eapply h_weaken with (Pre := fun e => (Pre e /\ SZ I e c (fun i => (snd i * snd i)%X) (2 * (M2 * M2))) /\ SR I e xs (fun i => (fst i * fst i)%X)) (Hon := Hon); [|apply incl_refl| | | | |]; cbv beta; [|intros e [HP R]; split; [exact HP|intros h i Hi; apply R; apply Hi]|auto| | |].
  2: { intros o Ho; exact Ho. }
  2: { intros e o _ _ R; exact R. }
  2: { intros o _; apply incl_appl, incl_refl. }
  sb (S_mul I). sb (s_addc _ _ _ I). sb (S_sub I).
  eapply h_post; [eapply (q_check0 lb m Hp Hlb Hlb2 Hm ch n k HN HK _ _ _ _ _ (2 * (M2 * M2) + (2 * (M2 * M2) + M2))); try inc; try eassumption| | |]; cbv beta.
  - assert (HR : (Nat.max (lg + n + n + 1) (Nat.max (lg + n + n + 1) n + 1) + 1 <= lg + n + n + 9 + lx + 1)%nat) by lia. eapply room_le; eauto.
  - assert (MP : 0 < M2) by (apply Z.pow_pos_nonneg; lia). pose proof (Z.abs_nonneg xi0) as XP. revert MP XP HB Hxi1. generalize M2 (Z.abs xi0) W. clear. intros; nia.
  - intros Hh HP. repeat (destruct HP as [HP ?]). destruct (HH Hh HP) as (A & G & E). match goal with H : SZ I hval ?a _ _ |- exists z, zv True hval ?a z /\ _ => destruct (H True A G) as (z & Z1 & Z2 & Z3); exists z; split; [exact Z1|split; [exact Z3|rewrite Z2]] end.
    unfold on2 in E. rewrite E. ring.
  - auto.
  - intros e _ _ HP R h A G. repeat (destruct HP as [HP ?]). match goal with H : SZ I e ?a _ _ , R : forall h z, zv h e ?a z -> _ |- _ => destruct (H h A G) as (z & Z1 & Z2 & Z3); specialize (R h z Z1 Z3); rewrite Z2 in R end.
    unfold on2. now apply x2_sub0.
  - intros _ _ x [].
Qed.
(** ** Loading *)
Lemma prs_eta (v : list Fm) : length v = 2%nat -> exists x : x2 m, v = prs x. Proof. apply list2. Qed.
Lemma G_load L (Pre : env -> Prop) (Hon : Prop) (A : pt2) :
  hcalc L Pre Hon (g2_load_private_unchecked lb m ch A) okg (fun e o => exists B : pt2, (forall h : Prop, (h -> e = hval) -> gred h e o B) /\ (e = hval -> B = A)) gcells.
Proof.
  unfold g2_load_private_unchecked.
  eapply h_bind; [apply (v_load_private lb m Hp Hlb Hlb2 Hm ch n k HN HK)|]. cbv beta. intros x [Lx Kx]. cbn [length] in Lx.
  eapply h_bind; [apply (v_load_private lb m Hp Hlb Hlb2 Hm ch n k HN HK)|]. cbv beta. intros y [Ly Ky]. cbn [length] in Ly. apply h_ret.
  - split; auto.
  - unfold gcells. cbn [gx gy]. apply incl_app; inc1.
  - intros e [[HP (u & Lu & Ru & Eu)] (v & Lv & Rv & Ev)]. cbn [length] in Lu, Lv. destruct (prs_eta u Lu) as [u' ->], (prs_eta v Lv) as [v' ->].
    exists (u', v'). split; [intros h Hh; split; [apply Ru|apply Rv]; auto|]. intros E. specialize (Eu E). specialize (Ev E). apply list2_inj in Eu, Ev. destruct A as [A1 A2]. cbn [fst snd] in Eu, Ev. now rewrite Eu, Ev.
Qed.
Lemma G_load_private L (Pre : env -> Prop) (Hon : Prop) (A : pt2) : (Hon -> Pre hval -> on2 A) ->
  hcalc L Pre Hon (g2_load_private lb m ch b A) okg (fun e o => exists B : pt2, on2 B /\ (forall h : Prop, (h -> e = hval) -> gred h e o B) /\ (e = hval -> B = A)) gcells.
Proof.
  intros HH. unfold g2_load_private.
  eapply h_bind; [apply G_load|]. cbv beta. intros P KP. cbn [app].
  eapply h_bind; [apply (G_onc _ _ Hon P); auto; try inc1|]; cbv beta.
  { intros Hh [HP (B & R & E)]. exists A. rewrite <- (E eq_refl) at 1. split; [apply R; auto|auto]. }
  intros [] _. cbn [app]. apply h_ret; [auto|inc1|].
  intros e [[HP (B & R & E)] C]. exists B. split; [|auto]. apply (C False B). apply R. intros [].
Qed.
(** ** Sums *)
Lemma gstr_opt h e P A : gstr h e P A <-> gopt true h e P A. Proof. unfold gstr, gopt. tauto. Qed.
Lemma gred_opt h e P A : gred h e P A -> gopt false h e P A. Proof. intros H. split; auto. discriminate. Qed.
Lemma G_sum_step L (Pre : env -> Prop) (Hon : Prop) (acc P : g2pt) : incl (gcells acc) L -> incl (gcells P) L -> okg acc -> okg P ->
  (Hon -> Pre hval -> exists A B U, gstr True hval acc A /\ gred True hval P B /\ pt_add A B = Some U) ->
  hcalc L Pre Hon (g2_sum_step lb m ch hint2 acc P) okg (fun e o => forall h (A B : pt2), gstr h e acc A -> gred h e P B -> exists U, pt_add A B = Some U /\ gstr h e o U) gcells.
Proof.
  intros Ca C Ka KP HH. unfold g2_sum_step.
  eapply h_bind; [apply (G_add_strict L Pre Hon true false acc P); auto|]; cbv beta.
  { intros Hh HP. destruct (HH Hh HP) as (A & B & U & G & G' & E). exists A, B. split; [now apply gstr_opt|]. split; [now apply gred_opt|]. eapply pt_add_neq; eauto. }
  intros a Kaa. cbn [app].
  eapply h_post; [apply (G_strict _ _ Hon a); auto; try inc1| | |]; cbv beta.
  - intros Hh [HP R]. destruct (HH Hh HP) as (A & B & U & G & G' & E). destruct (R True A B) as (U' & _ & GS); [now apply gstr_opt|now apply gred_opt|]. eauto.
  - auto.
  - intros e o _ [HP R] R2 h A B G G'. destruct (R h A B) as (U' & ES & GS); [now apply gstr_opt|now apply gred_opt|]. eauto.
  - intros o _. apply incl_appl, incl_refl.
Qed.
Fixpoint psums (A : pt2) (Bs : list pt2) : option pt2 := match Bs with [] => Some A | B :: Bs => match pt_add A B with None => None | Some U => psums U Bs end end.
Lemma G_sum_fold (Hon : Prop) : forall (points : list g2pt) (acc : g2pt) L (Pre : env -> Prop), incl (gcells acc) L -> (forall P, In P points -> incl (gcells P) L) -> okg acc -> Forall okg points ->
  (Hon -> Pre hval -> exists A Bs U, gstr True hval acc A /\ Forall2 (gred True hval) points Bs /\ psums A Bs = Some U) ->
  hcalc L Pre Hon (foldM (g2_sum_step lb m ch hint2) points acc) okg
    (fun e o => forall h A Bs, gstr h e acc A -> Forall2 (gred h e) points Bs -> exists U, psums A Bs = Some U /\ gstr h e o U) gcells.
Proof.
  induction points as [|P points IH]; intros acc L Pre Ca CP Ka KP HH; cbn [foldM].
  - apply h_ret; auto. intros e _ h A Bs HA HBs. inversion HBs; subst. exists A. auto.
  - inversion KP; subst. eapply h_bind; [apply (G_sum_step L Pre Hon acc P); auto; [apply CP; now left|]|]; cbv beta.
    { intros Hh HP. destruct (HH Hh HP) as (A & Bs & U & G & G' & E). inversion G' as [|? B ? Bs' GB GBs]; subst. cbn [psums] in E. destruct (pt_add A B) as [U'|] eqn:ES; [|discriminate]. exists A, B, U'. auto. }
    intros a2 Ka2. cbn [app]. eapply h_post; [apply (IH a2); auto| | |]; cbv beta.
    + apply incl_appl, incl_refl.
    + intros x Hx. apply incl_appr, CP. now right.
    + intros Hh [HP R]. destruct (HH Hh HP) as (A & Bs & U & G & G' & E). inversion G' as [|? B ? Bs' GB GBs]; subst. cbn [psums] in E. destruct (R True A B G GB) as (U' & ES & GS). rewrite ES in E. exists U', Bs', U. auto.
    + auto.
    + intros e o _ [HP R] R2 h A Bs G G'. inversion G' as [|? B ? Bs' GB GBs]; subst. destruct (R h A B G GB) as (U' & ES & GS). destruct (R2 h U' Bs' GS GBs) as (U & E & GS2). exists U. cbn [psums]. rewrite ES. auto.
    + intros o _. apply incl_appl, incl_refl.
Qed.
Lemma G_sum nhint (Hnh : forall x y : x2 m, nhint (prs x) (prs y) = prs (x2_mul (x2_opp x) (x2_inv y))) L (Pre : env -> Prop) (Hon : Prop) (R : pt2) (points : list g2pt) :
  (forall P, In P points -> incl (gcells P) L) -> Forall okg points ->
  (Hon -> Pre hval -> on2 R /\ exists Bs U, Forall2 (gred True hval) points Bs /\ psums R Bs = Some U /\ fst U <> fst R) ->
  hcalc L Pre Hon (g2_sum lb m ch hint2 nhint b R points) okg
    (fun e o => exists R', on2 R' /\ (e = hval -> R' = R) /\ forall (h : Prop) (Bs : list pt2), (h -> e = hval) -> Forall2 (gred h e) points Bs -> exists U T, psums R' Bs = Some U /\ pt_add U (pt_neg R') = Some T /\ gred h e o T) gcells.
Proof.
  intros CP KP HH. unfold g2_sum.
  eapply h_bind; [apply (G_load_private L Pre Hon R)|]; cbv beta. { intros Hh HP. now destruct (HH Hh HP). }
  intros r0 K0. cbn [app].
  eapply h_bind; [apply (G_strict _ _ Hon r0); auto; try inc1|]; cbv beta. { intros Hh [HP (R' & _ & G & _)]. exists R'. apply G. auto. }
  intros r1 K1. cbn [app].
  eapply h_bind; [apply (G_sum_fold Hon points r1); auto|]; cbv beta.
  { inc1. }
  { intros P HIn. apply incl_appr, incl_appr, CP, HIn. }
  { intros Hh [[HP (R' & _ & G & E)] RS]. destruct (HH Hh HP) as (_ & Bs & U & GB & ES & _). exists R, Bs, U. split; [|auto]. apply RS. rewrite <- (E eq_refl). apply G. auto. }
  intros acc Kacc. cbn [app].
  eapply h_post; [apply (G_sub_strict nhint Hnh _ _ Hon true true acc r1); auto; try inc1| | |]; cbv beta.
  - intros Hh [[[HP (R' & _ & G & E)] RS] RF]. destruct (HH Hh HP) as (_ & Bs & U & GB & ES & N). assert (GR : gstr True hval r1 R) by (apply RS; rewrite <- (E eq_refl); apply G; auto).
    destruct (RF True R Bs GR GB) as (U' & ES' & GS). rewrite ES in ES'. injection ES' as <-. exists U, R. split; [now apply gstr_opt|]. split; [now apply gstr_opt|auto].
  - auto.
  - intros e o _ [[[HP (R' & O & G & E)] RS] RF] RX. exists R'. split; auto. split; auto. intros h Bs Hh GB. assert (GR : gstr h e r1 R') by (apply RS, G; auto).
    destruct (RF h R' Bs GR GB) as (U & ES & GS). destruct (RX h U R') as (T & ET & GT); [now apply gstr_opt|now apply gstr_opt|]. exists U, T. auto.
  - intros o _. apply incl_appl, incl_refl.
Qed.
End Pair.
