(** frobenius_map (FinalExp.v) raises to the powers of the characteristic. *)
From Coq Require Import ZArith NArith Znumtheory Lia List Bool Ring.
From Verif Require Import Field Spec Context ContextProofs Utils Logic Gate GateProofs ChainProofs IPProofs BitProofs PowProofs IPComp Derived
  Range RangeProofs RangeProofs2 RangeProofs3 RegionGets Calc CalcH RegionPrev RegionLast BigPrims BigNum BigInt BigSpec BigOps BigSel BigCmp BigSub BigCarry BigMod BigCrtNum BigCrt FpChip FpProofs FpProofs2 FpProofs3 FpField FpField2 FpField3 FieldExt ExtSpec ExtProofs ExtProofs2 ExtProofs3 ExtProofs4 ExtProofs5 FinalExp GaussOps RingPow CycSpec FrobSpec Cyclo FinalProofs FinalProofs2.
Import ListNotations.
Local Open Scope Z_scope.

Lemma F2_nth {A B} (R : A -> B -> Prop) l l' i x y : Forall2 R l l' -> nth_error l i = Some x -> nth_error l' i = Some y -> R x y.
Proof. intros H. revert i. induction H; intros [|i] E1 E2; cbn in *; try discriminate; [congruence|eauto]. Qed.
Section Final.
Context {p : positive}.
Notation Fp := (F p).
Notation AV := (AV p).
Notation crt := (crt p).
Notation vec := (list crt).
Variables (lb : nat) (m : positive).
Notation env := (env (p:=p)).
Notation hcalc := (hcalc lb).
Hypothesis Hp : prime (Z.pos p).
Hypothesis Hlb : (1 <= lb < 64)%nat.
Hypothesis Hlb2 : (2 * lb <= CAPACITY p)%nat.
Hypothesis Hm : 1 < Z.pos m.
Add Ring Fring : (F_ring p) (morphism (F_morph p), constants [Fcst]).
Add Ring Fringm : (F_ring m) (morphism (F_morph m), constants [Fcst]).
Add Ring X2ringd : (x2_ring (m:=m)).
Variables (ch : fpchip p) (n k : nat).
Hypothesis HN : fpchip_new m n k = Some ch.
Hypothesis HK : fp_params (p:=p) lb m n k.
Notation mz := (Z.pos m).
Notation Fm := (F m).
Notation M2 := (2 ^ Z.of_nat (bits mz)).
Notation W := (2 ^ Z.of_nat (n * k + NUM_BITS p)).
Notation frep := (frep (p:=p) m n).
Notation fred := (fred (p:=p) m n).
Notation isk := (isk k).
Notation lg := (log2_ceil (Z.of_nat k)).
Notation islk := (islk k).
Notation room := (room (p:=p) lb n k).
Notation visk := (visk k).
Notation vism := (vism n k).
Notation vrep := (vrep m n).
Notation vred := (vred m n).
Notation red2 := (red2 (p:=p) m n).
Notation of2 := (of2 m).
Notation zv := (zv n).
Variable (xi0 : Z) (hint2 : list Fm -> list Fm -> list Fm).
Hypothesis Hh2 : forall u v, length u = 2%nat -> length v = 2%nat -> length (hint2 u v) = 2%nat.
Hypothesis Hxi1 : 1 <= Z.abs xi0.
Notation lx := (Nat.max (log2_ceil (Z.abs xi0)) (log2_ceil (Z.abs (xi0 + 1)))).
Hypothesis Hxi : - 2 ^ 63 < xi0 < 2 ^ 63 - 1.
Hypothesis Hroom : room (lg + n + n + 9 + lx + 1).
Hypothesis HB : 8 * ((12 * Z.abs xi0 + 12) * (M2 * M2) + 2 * M2) < W.
Notation xi := (xi (m:=m) xi0).

Notation Q_add := (q_add lb m Hlb Hlb2 n k).
Notation Q_sub := (q_sub lb m Hlb Hlb2 n k).
Notation Q_smul := (q_smul lb m Hlb Hlb2 n k).
Notation Q_smul_add := (q_smul_add lb m Hlb Hlb2 n k).
Notation Q_mul := (q_mul lb m Hp Hlb Hlb2 Hm ch n k HN HK).
Notation Q_w6 := (q_w6 lb m Hlb Hlb2 n k).
Notation Q_select := (q_select lb m Hp Hlb Hlb2 n k).
Notation Q_carry := (q_carry lb m Hp Hlb Hlb2 Hm ch n k HN HK).
Notation Q_divide := (q_divide lb m Hp Hlb Hlb2 Hm ch n k HN HK).
Notation Q_plus_one := (q_plus_one lb m Hlb Hlb2 ch n k HN HK).

Ltac inc1 := first [ assumption | apply incl_refl | (apply incl_appl; inc1) | (apply incl_appr; inc1) ].
Ltac inc := cbn [app]; first [ assumption | (unfold cpre, vpre; inc1) | (eapply cpre_incl; [eassumption|inc1]) | (eapply vpre_incl; [eassumption|inc1]) ].
Tactic Notation "qb" uconstr(lem) := eapply h_bind; [eapply lem; try inc; try eassumption; try lia|]; cbv beta; [..|let c := fresh "c" in let L := fresh "Lc" in let K := fresh "K" in intros c [L K]; cbn [app]].
Ltac zf1 :=
  match goal with
  | H : _ /\ _ |- _ => lazymatch type of H with (_ <= _ < _)%nat => fail | (_ <= _ < _)%Z => fail | _ => destruct H end
  | H : forall h x y, zv h ?e ?a x -> zv h ?e ?b y -> zv h ?e ?c _, A : zv ?h ?e ?a ?x, B : zv ?h ?e ?b ?y |- _ => specialize (H h x y A B); cbv beta in H
  | H : forall h x y, zv h ?e ?a x -> zv h ?e ?a y -> zv h ?e ?c _, A : zv ?h ?e ?a ?x |- _ => specialize (H h x x A A); cbv beta in H
  | H : forall h x, zv h ?e ?a x -> zv h ?e ?c _, A : zv ?h ?e ?a ?x |- _ => specialize (H h x A); cbv beta in H
  end.
Declare Scope x2_scope.
Notation "a + b" := (x2_add a b) : x2_scope.
Notation "a - b" := (x2_sub a b) : x2_scope.
Notation "a * b" := (x2_mul a b) : x2_scope.
Delimit Scope x2_scope with X.
Notation two := (x2_add (x2_1 (m:=m)) x2_1).
Notation three := (x2_add (x2_add (x2_1 (m:=m)) x2_1) x2_1).

Notation reds := (reds (p:=p) m n).
Notation viss := (viss (p:=p) n k).
Notation prs x := [fst (x : x2 m); snd (x : x2 m)].

Variable (ftab : list (x2 m)).
Notation w6 := (w6 (m:=m)).
Definition w6_nth (x : w6) (i : nat) : x2 m := nth i (w6_list x) x2_0.
Lemma enc_nth (x : w6) i : (i < 6)%nat -> nth_error (enc x) i = Some (fst (w6_nth x i)) /\ nth_error (enc x) (i + 6) = Some (snd (w6_nth x i)).
Proof. intros Hi. destruct x as [[[[[? ?] ?] ?] ?] ?]. destruct i as [|[|[|[|[|[|]]]]]]; try lia; cbn; auto. Qed.
Lemma enc_red2 h e (a : vec) (x : w6) i a0 a1 : vred h e a (enc x) -> (i < 6)%nat -> nth_error a i = Some a0 -> nth_error a (i + 6) = Some a1 -> red2 h e [a0; a1] (w6_nth x i).
Proof. intros V Hi E0 E1. destruct (enc_nth x i Hi) as [N0 N1]. unfold ExtProofs.vred in V. constructor; [eapply (F2_nth _ _ _ _ _ _ V); eauto|]. constructor; [eapply (F2_nth _ _ _ _ _ _ V); eauto|]. constructor. Qed.
Lemma x2_eqb_true (x y : x2 m) : x2_eqb x y = true -> x = y. Proof. unfold x2_eqb. intros H. apply x2_is0_true in H. now apply x2_sub0. Qed.

Lemma red2_hon (h : Prop) e (v : vec) (x : x2 m) : red2 h e v x -> h -> e = hval.
Proof. intros R Hh. destruct (red2_zv lb m Hlb Hlb2 n h e v x R) as (z & Hz & _). eapply zv_hon; eauto. Qed.
Lemma l_frob_coeff (L : list AV) (Pre : env -> Prop) (Hon : Prop) (a : vec) j i c : vpre L a -> vism a -> length a = 12%nat -> (i < 6)%nat -> nth_error ftab j = Some c -> (Hon -> zcap (p:=p) n k) -> (Hon -> Pre hval -> exists x, vred True hval a (enc x)) ->
  hcalc L Pre Hon (frobenius_coeff lb m ch ftab j a i) (fun o => length o = 2%nat /\ vism o) (fun e o => forall h x, vred h e a (enc x) -> red2 h e o (x2_mul (cj j (w6_nth x i)) (x2_npow c i))) vcells.
Proof.
  intros Ca Ka La Hi Hc HZ HH. unfold frobenius_coeff. assert (M2p : 0 < M2) by (apply Z.pow_pos_nonneg; lia).
  assert (MMp : M2 <= M2 * M2) by nia.
  destruct (nth_error a i) as [a0|] eqn:E0; [|apply nth_error_None in E0; lia]. destruct (nth_error a (i + 6)) as [a1|] eqn:E1; [|apply nth_error_None in E1; lia].
  eapply h_lift_bind; [eauto|]. rewrite Hc. intros ? [= <-]. cbv zeta.
  do 2 (eapply h_lift_bind; [eauto|intros ? [= <-]]).
  assert (R0 : forall h e x, vred h e a (enc x) -> red2 h e [a0; a1] (w6_nth x i)) by (intros h e x Hx; now apply (enc_red2 h e a)).
  assert (C0 : vpre L [a0; a1]). { intros x Hx. cbn [vcells flat_map] in Hx. rewrite app_nil_r in Hx. apply in_app_or in Hx as [Hx|Hx]; apply Ca, in_flat_map; [exists a0|exists a1]; split; auto; eapply nth_error_In; eauto. }
  assert (K0 : vism [a0; a1]). { unfold ExtProofs.vism in *. rewrite Forall_forall in Ka. apply Forall_cons; [apply Ka; eapply nth_error_In; eauto|apply Forall_cons; [apply Ka; eapply nth_error_In; eauto|constructor]]. }
  assert (CJ : hcalc L Pre Hon (if Nat.eqb (j mod 2) 0 then ret [a0; a1] else fp2_conjugate lb ch [a0; a1]) (fun o => length o = 2%nat /\ vism o) (fun e o => forall h x, vred h e a (enc x) -> red2 h e o (cj j (w6_nth x i))) vcells).
  { unfold cj. replace (Nat.even j) with (Nat.eqb (j mod 2) 0). 2:{ clear. apply eq_true_iff_eq. rewrite Nat.eqb_eq, Nat.even_spec, Nat.mod_divides by lia. unfold Nat.Even. reflexivity. }
    destruct (Nat.eqb (j mod 2) 0).
    - apply h_ret; [auto|exact C0|]. intros e _ h x Hx. auto.
    - eapply h_post; [apply (l2_conjugate lb m Hp Hlb Hlb2 Hm ch n k HN HK L Pre Hon [a0; a1] C0 K0); auto| | |]; cbv beta.
      + intros Hh HP. destruct (HH Hh HP) as (x & Hx). eauto.
      + tauto.
      + intros e o _ _ R h x Hx. eauto.
      + intros o _. apply incl_appl, incl_refl. }
  eapply h_bind; [exact CJ|]. cbv beta. clear CJ. intros v [Lv Kv]. pose proof (vism_visk _ _ _ Kv) as Wv.
  set (fc := x2_npow c i). destruct (x2_eqb fc x2_1) eqn:EQ1; [|destruct (Fis0 (snd fc)) eqn:EQ0].
  - apply x2_eqb_true in EQ1. rewrite EQ1. apply h_ret; [auto|inc|]. intros e [HP R] h x Hx. replace (x2_mul (cj j (w6_nth x i)) x2_1) with (cj j (w6_nth x i)) by ring. auto.
  - apply Fis0_true in EQ0.
    eapply h_bind; [apply (f_load_constant lb m Hp Hlb Hlb2 Hm ch n k HN HK)|]. cbv beta. intros f Kf.
    eapply h_bind; [apply (v_fp_mul lb m Hp Hlb Hlb2 Hm ch n k HN HK _ _ _ v f n n); auto; [inc|inc|destruct Kf; split; lia]|]. cbv beta. intros nc [Lnc Knc]. cbn [app].
    match goal with |- CalcH.hcalc _ _ ?P _ _ _ _ _ => set (P1 := P) end.
    assert (F1 : forall e, P1 e -> forall h x, vred h e a (enc x) -> vrep h e nc (M2 * M2) (map (fun z => z * fst fc)%F (prs (cj j (w6_nth x i))))).
    { intros e [[[HP R1] R2] R3] h x Hx. apply (R3 h M2 M2); [apply (vred_vrep lb m Hlb Hlb2), R1; auto|]. apply (fred_frep lb m Hlb Hlb2). apply (fcan_fred lb m Hlb Hlb2 Hm). apply R2. intros Hh. exact (red2_hon _ _ _ _ (R1 h x Hx) Hh). }
    assert (P1P : forall e, P1 e -> Pre e) by (unfold P1; tauto). clearbody P1.
    eapply h_post; [apply (v_carry lb m Hp Hlb Hlb2 Hm ch n k HN HK _ P1 Hon nc (lg + n + n)); auto; try inc| | |]; cbv beta.
    + eapply room_le; eauto. lia.
    + intros Hh HP. destruct (HH Hh (P1P _ HP)) as (x & Hx). exists (M2 * M2). eexists. split; [apply (F1 _ HP True x Hx)|]. clear - HB M2p MMp. assert (0 <= M2 * M2 * Z.abs xi0) by (apply Z.mul_nonneg_nonneg; lia). lia.
    + intros o [H1 H2]. split; [congruence|auto].
    + intros e o _ HP R h x Hx. specialize (R h _ _ (F1 e HP h x Hx)). unfold ExtProofs3.red2. replace (prs (x2_mul (cj j (w6_nth x i)) fc)) with (map (fun z => z * fst fc)%F (prs (cj j (w6_nth x i)))). 
      * apply R. clear - HB M2p MMp. assert (0 <= M2 * M2 * Z.abs xi0) by (apply Z.mul_nonneg_nonneg; lia). lia.
      * unfold x2_mul. rewrite EQ0. cbn [map fst snd]. apply f_equal2; [ring|apply f_equal2; [ring|auto]].
    + intros o _. apply incl_appl, incl_refl.
  - eapply h_bind; [apply (v_load_constant lb m Hp Hlb Hlb2 Hm ch n k HN HK _ _ _ [fst fc; snd fc])|]. cbv beta. intros f [Lf Kf]. cbn [length] in Lf. pose proof (vism_visk _ _ _ Kf) as Wf. unfold ext_mul. cbn [app].
    qb (Q_mul).
    match goal with |- CalcH.hcalc _ _ ?P _ _ _ _ _ => set (P1 := P) end.
    assert (F1 : forall e, P1 e -> forall h x, vred h e a (enc x) -> exists z, zv h e c0 z /\ gle z (2 * (M2 * M2)) /\ of2 z = x2_mul (cj j (w6_nth x i)) fc).
    { intros e [[[HP R1] R2] R3] h x Hx. pose proof (R1 h x Hx) as RA. assert (RB : red2 h e f fc). { apply (vcan_vred lb m Hlb Hlb2 Hm). apply R2. intros Hh. exact (red2_hon _ _ _ _ (R1 h x Hx) Hh). }
      apply (red2_zv lb m Hlb Hlb2) in RA as (za & Za & Ba & Ea), RB as (zb & Zb & Bb & Eb). exists (gmul za zb). split; [auto|]. split; [|rewrite of2_mul; congruence].
      eapply g2_gle; [apply smul2; eassumption| |]; lia. }
    assert (P1P : forall e, P1 e -> Pre e) by (unfold P1; tauto). clearbody P1.
    assert (HB2 : 8 * (2 * (M2 * M2)) < W). { clear - HB M2p MMp. assert (0 <= M2 * M2 * Z.abs xi0) by (apply Z.mul_nonneg_nonneg; lia). lia. }
    eapply h_post; [apply (Q_carry _ P1 Hon c0 (lg + n + n + 1)); auto; try inc| | |]; cbv beta.
    + eapply room_le; eauto. lia.
    + intros Hh HP. destruct (HH Hh (P1P _ HP)) as (x & Hx). destruct (F1 _ HP True x Hx) as (z & Hz1 & Hz2 & _). eauto.
    + auto.
    + intros e o _ HP R h x Hx. destruct (F1 _ HP h x Hx) as (z & Hz1 & Hz2 & <-). eauto.
    + intros o _. apply incl_appl, incl_refl.
Qed.

(** ** frobenius_map *)
Hypothesis Hmp : prime (Z.pos m).
Hypothesis H3 : Z.pos m mod 4 = 3.
Hypothesis H6 : Z.pos m mod 6 = 1.
(** halo2curves' [FROBENIUS_COEFF_FQ12_C1[j] = xi^((q^j - 1) / 6)], [0 <= j < 12] *)
Hypothesis Htab : forall j, (j < 12)%nat -> nth_error ftab j = Some (gam (m:=m) xi0 j).
Hypothesis Hz6 : primitive6 (m:=m) xi0.
Notation q := (N.pos m).
Notation wmul := (w6_mul (m:=m) xi0).
Notation pw := (npow (w6_1 (m:=m)) wmul).
Lemma flat_vcells_app (l : list vec) L : incl (flat_map vcells l) L -> forall v, In v l -> vpre L v.
Proof. intros H v Hv x Hx. apply H, in_flat_map. eauto. Qed.
Lemma l_frobenius (L : list AV) (Pre : env -> Prop) (Hon : Prop) (a : vec) power : vpre L a -> vism a -> (Hon -> length a = 12%nat) -> (Hon -> zcap (p:=p) n k) -> (Hon -> Pre hval -> exists x, vred True hval a (enc x)) ->
  hcalc L Pre Hon (frobenius_map lb m ch ftab a power) (fun o => length a = 12%nat /\ length o = 12%nat /\ vism o)
    (fun e o => forall h x, vred h e a (enc x) -> vred h e o (enc (pw x (q ^ N.of_nat power)))) vcells.
Proof.
  intros Ca Ka HL HZ HH. unfold frobenius_map. rewrite (modulus_correct Hm), H3, H6.
  do 2 (eapply h_assert_bind; [auto|intros _]). cbv beta.
  eapply h_assert_bind; [intros Hh _; rewrite (HL Hh); reflexivity|intros La]. apply Nat.eqb_eq in La.
  set (j := (power mod 12)%nat). assert (Hj : (j < 12)%nat) by (apply Nat.mod_upper_bound; lia).
  eapply h_bind; [apply (h_mapM lb L Pre Hon _ (fun _ o => length o = 2%nat /\ vism o) (fun e i o => forall h x, vred h e a (enc x) -> red2 h e o (x2_mul (cj j (w6_nth x i)) (x2_npow (gam xi0 j) i))) vcells)|]; cbv beta.
  { intros i Hi. apply in_seq in Hi. apply (l_frob_coeff L Pre Hon a j i (gam xi0 j)); auto. lia. }
  intros out Hout.
  eapply h_post; [apply (l_coeffs lb m Hlb Hlb2 n k xi0 HB _ _ _ out)| | |]; cbv beta.
  - unfold FinalProofs.viss. apply Forall_forall. intros v Hv. destruct (F2_in_r _ _ _ v Hout Hv) as (i & _ & Hi). exact Hi.
  - apply incl_appl, incl_refl.
  - intros o [Lo Ko]. apply Forall2_len in Hout. rewrite seq_length in Hout. rewrite <- Hout in Lo. auto.
  - intros e o _ [HP R] RC h x Hx. specialize (RC h (map (fun i => x2_mul (cj j (w6_nth x i)) (x2_npow (gam xi0 j) i)) (seq 0 6))).
    rewrite (frob_mod12 xi0 Hmp H3 H6 Hz6). fold j. rewrite (w6_frob xi0 Hmp H3 H6).
    replace (enc (frob_with j (gam xi0 j) x)) with (w_to (map (fun i => x2_mul (cj j (w6_nth x i)) (x2_npow (gam xi0 j) i)) (seq 0 6))).
    + apply RC. unfold FinalProofs.reds. clear - R Hx. induction R as [|i o l out Ho R IH]; cbn [map]; constructor; auto.
    + destruct x as [[[[[x0 x1] x2'] x3] x4] x5]. unfold enc. f_equal. cbn [seq map w6_list frob_with w6_nth nth x2_npow]. set (g := gam xi0 j). clearbody g. unfold w6_nth. cbn [nth w6_list]. repeat match goal with |- _ :: _ = _ :: _ => apply f_equal2 end; try reflexivity; ring.
  - intros o _. apply incl_appl, incl_refl.
Qed.
End Final.
