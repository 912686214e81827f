(** The methods of FinalExp.v as operations on Fp12: values are [w6] tuples, coordinates [enc]. *)
From Coq Require Import ZArith NArith Znumtheory Lia List Bool Ring.
From Verif Require Import Field Spec Context ContextProofs Utils Logic Gate GateProofs ChainProofs IPProofs BitProofs PowProofs IPComp Derived
  Range RangeProofs RangeProofs2 RangeProofs3 RegionGets Calc CalcH RegionPrev RegionLast BigPrims BigNum BigInt BigSpec BigOps BigSel BigCmp BigSub BigCarry BigMod BigCrtNum BigCrt FpChip FpProofs FpProofs2 FpProofs3 FpField FpField2 FpField3 FieldExt ExtSpec ExtProofs ExtProofs2 ExtProofs3 ExtProofs4 ExtProofs5 FinalExp GaussOps RingPow CycSpec FrobSpec Cyclo FinalProofs FinalProofs2 FinalProofs3 Ecc PropsNaf.
Import ListNotations.
Local Open Scope Z_scope.

(** ** the digits, most significant first *)
Definition mval (l : list Z) : Z := fold_left (fun s d => 2 * s + d) l 0.
Lemma mval_snoc l d : mval (l ++ [d]) = 2 * mval l + d. Proof. unfold mval. now rewrite fold_left_app. Qed.
Lemma mval_rev l : mval (rev l) = signed_value l.
Proof. induction l as [|d l IH]; cbn [rev signed_value]; [reflexivity|]. rewrite mval_snoc, IH. ring. Qed.
Lemma mval_app a b : mval (a ++ b) = 2 ^ Z.of_nat (length b) * mval a + mval b.
Proof.
  induction b as [|d b IH] using rev_ind; [rewrite app_nil_r; change (mval []) with 0; change (2 ^ Z.of_nat (@length Z [])) with 1; lia|]. rewrite app_assoc, !mval_snoc, IH, app_length, Nat2Z.inj_add. cbn [length]. rewrite Z.pow_add_r by lia. change (2 ^ Z.of_nat 1) with 2. ring.
Qed.
Lemma mval_bound b : Forall signed_digit b -> - 2 ^ Z.of_nat (length b) < mval b < 2 ^ Z.of_nat (length b).
Proof.
  induction b as [|d b IH] using rev_ind; intros F; [cbn; lia|]. apply Forall_app in F as [F1 F2]. specialize (IH F1). inversion F2 as [|? ? D _]; subst. unfold signed_digit in D.
  rewrite mval_snoc, app_length, Nat2Z.inj_add. cbn [length]. rewrite Z.pow_add_r by lia. change (2 ^ Z.of_nat 1) with 2. lia.
Qed.
Lemma prefix_nonneg done rest : Forall signed_digit (done ++ rest) -> 0 <= mval (done ++ rest) -> 0 <= mval done.
Proof.
  intros F H. rewrite mval_app in H. apply Forall_app in F as [_ F]. apply mval_bound in F. assert (0 < 2 ^ Z.of_nat (length rest)) by (apply Z.pow_pos_nonneg; lia). nia.
Qed.
Lemma prefix_facts done d rest : Forall signed_digit (done ++ d :: rest) -> 0 <= mval (done ++ d :: rest) ->
  (d = -1 \/ d = 0 \/ d = 1) /\ 0 <= mval done /\ 0 <= 2 * mval done + d /\ (1 <= mval done -> 2 * mval done <= mval (done ++ d :: rest) + 1).
Proof.
  intros F H. assert (D : signed_digit d). { apply Forall_app in F as [_ F]. now inversion F. } unfold signed_digit in D. split; auto. split; [eapply prefix_nonneg; eauto|].
  replace (done ++ d :: rest) with ((done ++ [d]) ++ rest) in * by (rewrite <- app_assoc; reflexivity). split; [rewrite <- mval_snoc; eapply prefix_nonneg; eauto|].
  intros H1. rewrite mval_app, mval_snoc in *. apply Forall_app in F as [_ F]. apply mval_bound in F. assert (0 < 2 ^ Z.of_nat (length rest)) by (apply Z.pow_pos_nonneg; lia). 
  destruct (Z.eq_dec (2 * mval done + d) 0); nia.
Qed.
Section High.
Context {p : positive}.
Notation Fp := (F p).
Notation AV := (AV p).
Notation crt := (crt p).
Notation vec := (list crt).
Variables (lb : nat) (m : positive).
Notation env := (env (p:=p)).
Notation hcalc := (hcalc lb).
Hypothesis Hp : prime (Z.pos p).
Hypothesis Hlb : (1 <= lb < 64)%nat.
Hypothesis Hlb2 : (2 * lb <= CAPACITY p)%nat.
Hypothesis Hm : 1 < Z.pos m.
Add Ring Fring : (F_ring p) (morphism (F_morph p), constants [Fcst]).
Add Ring Fringm : (F_ring m) (morphism (F_morph m), constants [Fcst]).
Add Ring X2ringd : (x2_ring (m:=m)).
Variables (ch : fpchip p) (n k : nat).
Hypothesis HN : fpchip_new m n k = Some ch.
Hypothesis HK : fp_params (p:=p) lb m n k.
Notation mz := (Z.pos m).
Notation Fm := (F m).
Notation M2 := (2 ^ Z.of_nat (bits mz)).
Notation W := (2 ^ Z.of_nat (n * k + NUM_BITS p)).
Notation frep := (frep (p:=p) m n).
Notation fred := (fred (p:=p) m n).
Notation isk := (isk k).
Notation lg := (log2_ceil (Z.of_nat k)).
Notation islk := (islk k).
Notation room := (room (p:=p) lb n k).
Notation visk := (visk k).
Notation vism := (vism n k).
Notation vrep := (vrep m n).
Notation vred := (vred m n).
Notation red2 := (red2 (p:=p) m n).
Notation of2 := (of2 m).
Notation zv := (zv n).
Variable (xi0 : Z).
Hypothesis Hxi1 : 1 <= Z.abs xi0.
Notation lx := (Nat.max (log2_ceil (Z.abs xi0)) (log2_ceil (Z.abs (xi0 + 1)))).
Hypothesis Hxi : - 2 ^ 63 < xi0 < 2 ^ 63 - 1.
Hypothesis Hroom : room (lg + n + n + 9 + lx + 1).
Hypothesis HB : 8 * ((12 * Z.abs xi0 + 12) * (M2 * M2) + 2 * M2) < W.
Notation xi := (xi (m:=m) xi0).

Notation Q_add := (q_add lb m Hlb Hlb2 n k).
Notation Q_sub := (q_sub lb m Hlb Hlb2 n k).
Notation Q_smul := (q_smul lb m Hlb Hlb2 n k).
Notation Q_smul_add := (q_smul_add lb m Hlb Hlb2 n k).
Notation Q_mul := (q_mul lb m Hp Hlb Hlb2 Hm ch n k HN HK).
Notation Q_w6 := (q_w6 lb m Hlb Hlb2 n k).
Notation Q_select := (q_select lb m Hp Hlb Hlb2 n k).
Notation Q_carry := (q_carry lb m Hp Hlb Hlb2 Hm ch n k HN HK).
Notation Q_divide := (q_divide lb m Hp Hlb Hlb2 Hm ch n k HN HK).
Notation Q_plus_one := (q_plus_one lb m Hlb Hlb2 ch n k HN HK).

Ltac inc1 := first [ assumption | apply incl_refl | (apply incl_appl; inc1) | (apply incl_appr; inc1) ].
Ltac inc := cbn [app]; first [ assumption | (unfold cpre, vpre; inc1) | (eapply cpre_incl; [eassumption|inc1]) | (eapply vpre_incl; [eassumption|inc1]) ].
Tactic Notation "qb" uconstr(lem) := eapply h_bind; [eapply lem; try inc; try eassumption; try lia|]; cbv beta; [..|let c := fresh "c" in let L := fresh "Lc" in let K := fresh "K" in intros c [L K]; cbn [app]].
Ltac zf1 :=
  match goal with
  | H : _ /\ _ |- _ => lazymatch type of H with (_ <= _ < _)%nat => fail | (_ <= _ < _)%Z => fail | _ => destruct H end
  | H : forall h x y, zv h ?e ?a x -> zv h ?e ?b y -> zv h ?e ?c _, A : zv ?h ?e ?a ?x, B : zv ?h ?e ?b ?y |- _ => specialize (H h x y A B); cbv beta in H
  | H : forall h x y, zv h ?e ?a x -> zv h ?e ?a y -> zv h ?e ?c _, A : zv ?h ?e ?a ?x |- _ => specialize (H h x x A A); cbv beta in H
  | H : forall h x, zv h ?e ?a x -> zv h ?e ?c _, A : zv ?h ?e ?a ?x |- _ => specialize (H h x A); cbv beta in H
  end.
Declare Scope x2_scope.
Notation "a + b" := (x2_add a b) : x2_scope.
Notation "a - b" := (x2_sub a b) : x2_scope.
Notation "a * b" := (x2_mul a b) : x2_scope.
Delimit Scope x2_scope with X.
Notation two := (x2_add (x2_1 (m:=m)) x2_1).
Notation three := (x2_add (x2_add (x2_1 (m:=m)) x2_1) x2_1).

Notation reds := (reds (p:=p) m n).
Notation viss := (viss (p:=p) n k).
Notation prs x := [fst (x : x2 m); snd (x : x2 m)].


Variables (hint2 hint12 : list Fm -> list Fm -> list Fm) (ftab : list (x2 m)).
Hypothesis Hmp : prime (Z.pos m).
Hypothesis H3 : Z.pos m mod 4 = 3.
Hypothesis H6 : Z.pos m mod 6 = 1.
Hypothesis Htab : forall j, (j < 12)%nat -> nth_error ftab j = Some (gam (m:=m) xi0 j).
Hypothesis Hz6 : primitive6 (m:=m) xi0.
Notation q := (N.pos m).
Notation w6 := (w6 (m:=m)).
Notation wmul := (w6_mul (m:=m) xi0).
Notation pw := (npow (w6_1 (m:=m)) wmul).
Notation WR := (w6_ring (m:=m) xi0).
Notation cyc := (cyc (m:=m) xi0).
Add Ring W6ringh : WR.
Definition unit12 (x : w6) : Prop := exists y, wmul x y = w6_1.
(** the hints: [a * b.invert().unwrap_or_default()] *)
Hypothesis Hh2 : forall x y : x2 m, hint2 (prs x) (prs y) = prs (x2_mul x (x2_inv y)).
Hypothesis Hh12l : forall u v, length u = 12%nat -> length v = 12%nat -> length (hint12 u v) = 12%nat.
Hypothesis Hh12 : forall x y : w6, unit12 y -> x12_mul xi0 (hint12 (enc x) (enc y)) (enc y) = enc x.
Lemma Hh2l : forall u v, length u = 2%nat -> length v = 2%nat -> length (hint2 u v) = 2%nat.
Proof. intros u v Lu Lv. destruct (list2 m u Lu) as [x ->], (list2 m v Lv) as [y ->]. now rewrite Hh2. Qed.

Definition wred (h : Prop) (e : env) (a : vec) (x : w6) : Prop := vred h e a (enc x).
Definition ok12 (a : vec) : Prop := length a = 12%nat /\ vism a.
Notation mul12 := (ext_mul lb ch (fp12_mul_no_carry ch xi0)).
Notation divu12 := (ext_divide_unsafe lb m ch 12 (fp12_mul_no_carry ch xi0) hint12).
Lemma Hr12 : room (lg + n + n + 9 + log2_ceil (Z.abs xi0) + 1). Proof. eapply room_le; [eauto..|]. lia. Qed.
Lemma HB12 : 8 * ((10 * Z.abs xi0 + 12) * (M2 * M2) + M2) < W.
Proof. assert (M2p : 0 < M2) by (apply Z.pow_pos_nonneg; lia). assert (0 <= M2 * M2) by nia. assert (0 <= M2 * M2 * Z.abs xi0) by (apply Z.mul_nonneg_nonneg; lia). revert HB. lia. Qed.
Lemma Hxi' : - 2 ^ 63 < xi0 < 2 ^ 63. Proof. lia. Qed.
Notation HMul := (fp12_Hmul lb m Hp Hlb Hlb2 Hm ch n k HN HK xi0 (lg + n + n + 9 + log2_ceil (Z.abs xi0)) Hxi' (Nat.le_refl _)).
Lemma H12d : (0 < 12)%nat. Proof. lia. Qed.
Lemma Hnb12 : (n <= lg + n + n + 9 + log2_ceil (Z.abs xi0))%nat. Proof. lia. Qed.
Lemma vred_enc (h : Prop) (e : env) (a : vec) (u : list Fm) : length a = 12%nat -> vred h e a u -> exists x, u = enc x.
Proof. intros La V. apply (vred_len lb m Hlb Hlb2) in V. exists (dec u). symmetry. apply enc_dec. congruence. Qed.
Lemma wred_hon (h : Prop) e (a : vec) (x : w6) : wred h e a x -> h -> e = hval.
Proof.
  intros V Hh. unfold wred in V. destruct x as [[[[[x0 x1] x2'] x3] x4] x5]. unfold enc, w_to, w6_list in V. cbn [map app] in V. inversion V as [|c ? ? ? F _]; subst. 
  destruct (fred_zrep lb m Hlb Hlb2 n h e c _ F) as (z & [_ Z] & _). now destruct (Z Hh).
Qed.
Lemma W_mul L (Pre : env -> Prop) (Hon : Prop) (a b : vec) : vpre L a -> vpre L b -> ok12 a -> ok12 b -> (Hon -> Pre hval -> exists x y, wred True hval a x /\ wred True hval b y) ->
  hcalc L Pre Hon (mul12 a b) ok12 (fun e o => forall h x y, wred h e a x -> wred h e b y -> wred h e o (wmul x y)) vcells.
Proof.
  intros Ca Cb [La Ka] [Lb Kb] HH.
  eapply h_post; [apply (v_mul lb m Hp Hlb Hlb2 Hm ch n k HN HK 12 _ _ _ _ H12d Hr12 Hnb12 HB12 HMul L Pre Hon a b Ca Cb Ka Kb)| | |]; cbv beta; auto.
  - intros Hh HP. destruct (HH Hh HP) as (x & y & Hx & Hy). exists (enc x), (enc y). auto.
  - intros o (_ & _ & Lo & Ko). split; auto.
  - intros e o _ _ R h x y Hx Hy. unfold wred. rewrite <- enc_mul. apply R; auto.
  - intros o _. apply incl_appl, incl_refl.
Qed.
Lemma W_divu L (Pre : env -> Prop) (Hon : Prop) (a b : vec) : vpre L a -> vpre L b -> ok12 a -> ok12 b -> (Hon -> Pre hval -> exists x y, wred True hval a x /\ wred True hval b y /\ unit12 y) ->
  hcalc L Pre Hon (divu12 a b) ok12 (fun e o => forall h x y, wred h e a x -> wred h e b y -> (h -> Hon) -> exists w, wred h e o w /\ wmul w y = x) vcells.
Proof.
  intros Ca Cb [La Ka] [Lb Kb] HH.
  eapply h_post; [apply (v_divide_unsafe lb m Hp Hlb Hlb2 Hm ch n k HN HK 12 _ _ _ _ H12d (x12_mul_length xi0) Hr12 Hnb12 HB12 HMul L Pre Hon hint12 a b Ca Cb Ka Kb)| | |]; cbv beta; auto.
  - intros Hh HP. destruct (HH Hh HP) as (x & y & Hx & Hy & U). exists (enc x), (enc y). split; [auto|]. split; [auto|]. auto.
  - intros o (_ & _ & Lo & Ko). split; auto.
  - intros e o (_ & _ & Lo & _) _ R h x y Hx Hy Hh. destruct (R h _ _ Hx Hy Hh) as (w & Hw & E & _). destruct (vred_enc _ _ _ _ Lo Hw) as (w' & ->). exists w'. split; [exact Hw|]. rewrite enc_mul in E. now apply enc_inj.
  - intros o _. apply incl_appl, incl_refl.
Qed.
Lemma W_conj L (Pre : env -> Prop) (Hon : Prop) (a : vec) : vpre L a -> ok12 a -> (Hon -> zcap (p:=p) n k) -> (Hon -> Pre hval -> exists x, wred True hval a x) ->
  hcalc L Pre Hon (fp12_conjugate lb ch a) ok12 (fun e o => forall h x, wred h e a x -> wred h e o (pw x (q ^ 6))) vcells.
Proof.
  intros Ca [La Ka] HZ HH.
  eapply h_post; [apply (l12_conjugate lb m Hp Hlb Hlb2 Hm ch n k HN HK L Pre Hon a Ca Ka)| | |]; cbv beta; auto.
  - intros Hh HP. destruct (HH Hh HP) as (x & Hx). exists (enc x). auto.
  - intros o (_ & Lo & Ko). split; auto.
  - intros e o _ _ R h x Hx. unfold wred. rewrite (frob_q6 xi0 Hmp H3 H6 Hz6). destruct x as [[[[[x0 x1] x2'] x3] x4] x5]. rewrite <- (enc_conj (x0, x1, x2', x3, x4, x5)). apply R; auto.
  - intros o _. apply incl_appl, incl_refl.
Qed.
Lemma W_frob L (Pre : env -> Prop) (Hon : Prop) (a : vec) j : vpre L a -> ok12 a -> (Hon -> zcap (p:=p) n k) -> (Hon -> Pre hval -> exists x, wred True hval a x) ->
  hcalc L Pre Hon (frobenius_map lb m ch ftab a j) ok12 (fun e o => forall h x, wred h e a x -> wred h e o (pw x (q ^ N.of_nat j))) vcells.
Proof.
  intros Ca [La Ka] HZ HH.
  eapply h_post; [apply (l_frobenius lb m Hp Hlb Hlb2 Hm ch n k HN HK xi0 Hxi1 Hxi Hroom HB ftab Hmp H3 H6 Htab Hz6 L Pre Hon a j Ca Ka)| | |]; cbv beta; auto.
  - intros o (_ & Lo & Ko). split; auto.
  - intros o _. apply incl_appl, incl_refl.
Qed.
(** ** compression *)
Definition cmp (x : w6) : list (x2 m) := let '(_, x1, x2, _, x4, x5) := x in [x1; x4; x2; x5].
Definition ok4 (c : list vec) : Prop := length c = 4%nat /\ viss c.
Definition cvcells (c : list vec) : list AV := flat_map vcells c.
Lemma W_compress L (Pre : env -> Prop) (Hon : Prop) (a : vec) : vpre L a -> ok12 a ->
  hcalc L Pre Hon (cyclotomic_compress a) ok4 (fun e o => forall h x, wred h e a x -> reds h e o (cmp x)) cvcells.
Proof.
  intros Ca [La Ka]. unfold cyclotomic_compress. cbv zeta.
  assert (IN : forall i, (i < 12)%nat -> exists c, nth_error a i = Some c /\ cpre L c /\ isk c n).
  { intros i Hi. destruct (nth_error a i) as [c|] eqn:E; [|apply nth_error_None in E; lia]. exists c. split; auto. apply nth_error_In in E. split; [eapply vpre_in; eauto|]. unfold ExtProofs.vism in Ka. rewrite Forall_forall in Ka. auto. }
  assert (G : forall i, (i < 6)%nat -> forall L', incl L L' -> forall P, hcalc L' P Hon (bind (lift (nth_error a i)) (fun x => bind (lift (nth_error a (i + 6))) (fun y => ret [x; y]))) (fun o => (length o = 2%nat /\ vism o) /\ incl (vcells o) L) (fun e o => forall h x, wred h e a x -> red2 h e o (w6_nth m x i)) vcells).
  { intros i Hi L' HL P. destruct (IN i ltac:(lia)) as (c0 & E0 & C0 & K0). destruct (IN (i + 6)%nat ltac:(lia)) as (c1 & E1 & C1 & K1).
    rewrite E0, E1. do 2 (eapply h_lift_bind; [eauto|intros ? [= <-]]).
    assert (CC : incl (vcells [c0; c1]) L) by (unfold vcells; cbn [flat_map]; rewrite app_nil_r; apply incl_app; assumption).
    apply h_ret.
    - split; auto. split; auto. apply Forall_cons; [auto|apply Forall_cons; [auto|constructor]].
    - eapply incl_tran; eauto.
    - intros e _ h x Hx. eapply (enc_red2 lb m Hlb Hlb2 n k xi0 HB h e a x i); eauto. }
  eapply h_bind; [apply (G 1%nat); [lia|apply incl_refl]|]. cbv beta. intros g2 [K2 I2].
  eapply h_bind; [apply (G 4%nat); [lia|inc1]|]. cbv beta. intros g3 [K3' I3].
  eapply h_bind; [apply (G 2%nat); [lia|inc1]|]. cbv beta. intros g4 [K4 I4].
  eapply h_bind; [apply (G 5%nat); [lia|inc1]|]. cbv beta. intros g5 [K5 I5].
  apply h_ret.
  - split; auto. repeat (apply Forall_cons; [assumption|]). constructor.
  - unfold cvcells. cbn [flat_map]. rewrite app_nil_r. repeat apply incl_app; inc1.
  - intros e [[[[_ R2] R3] R4] R5] h x Hx. pose proof (R2 h x Hx) as Q2. pose proof (R3 h x Hx) as Q3. pose proof (R4 h x Hx) as Q4. pose proof (R5 h x Hx) as Q5. clear - Q2 Q3 Q4 Q5. destruct x as [[[[[x0 x1] x2'] x3] x4] x5]. unfold w6_nth in *. cbn [nth w6_list] in *. unfold cmp, FinalProofs.reds.
    repeat (apply Forall2_cons; [assumption|]). constructor.
Qed.
Lemma c4 (c : list vec) : ok4 c -> exists g2 g3 g4 g5, c = [g2; g3; g4; g5].
Proof. intros [Lc _]. destruct c as [|g2 [|g3 [|g4 [|g5 [|]]]]]; try discriminate. eauto. Qed.
Lemma cmp4 (x : w6) : exists x1 x2 x4 x5, cmp x = [x1; x4; x2; x5]. Proof. destruct x as [[[[[x0 x1] x2'] x3] x4] x5]. cbn [cmp]. eauto. Qed.
Lemma cmp_sq (x : w6) : cyc x -> cmp (wmul x x) = match cmp x with [x2; x3; x4; x5] => sq_spec m xi0 x2 x3 x4 x5 | _ => [] end.
Proof.
  intros Cx. destruct x as [[[[[x0 x1] x2'] x3] x4] x5]. destruct (square_coords xi0 Hmp H3 H6 Hz6 _ _ _ _ _ _ Cx) as (s0 & s3 & ->). reflexivity.
Qed.
Lemma W_square L (Pre : env -> Prop) (Hon : Prop) (c : list vec) : incl (cvcells c) L -> ok4 c -> (Hon -> Pre hval -> exists x, reds True hval c (cmp x)) ->
  hcalc L Pre Hon (cyclotomic_square lb ch xi0 c) ok4 (fun e o => forall h x, cyc x -> reds h e c (cmp x) -> reds h e o (cmp (wmul x x))) cvcells.
Proof.
  intros Cc Kc HH. destruct (c4 c Kc) as (g2 & g3 & g4 & g5 & ->). destruct Kc as [_ Kc].
  eapply h_post; [apply (l_square lb m Hp Hlb Hlb2 Hm ch n k HN HK xi0 Hxi Hroom HB L Pre Hon g2 g3 g4 g5 Kc Cc)| | |]; cbv beta; auto.
  - intros Hh HP. destruct (HH Hh HP) as (x & Hx). eauto.
  - intros e o _ _ R h x Cx Hx. rewrite (cmp_sq x Cx). destruct (cmp4 x) as (x1 & x2' & x4 & x5 & E). rewrite E in *. now apply R.
  - intros o _. apply incl_appl, incl_refl.
Qed.
(** the honest prover can decompress *)
Definition decomp_ok (x : w6) : Prop := let '(_, _, x2', _, x4, x5) := x in x4 <> x2_0 \/ x2_mul x2' x5 = x2_0.
Lemma x2_dec (x : x2 m) : x = x2_0 \/ x <> x2_0.
Proof. destruct (x2_is0 x) eqn:E; [left; now apply x2_is0_eq|right; intros ->; rewrite (proj2 (x2_is0_eq _) eq_refl) in E; discriminate]. Qed.
Lemma two_nz' : two <> x2_0. Proof. apply (two_nz Hmp H3 H6). Qed.
Lemma den_nz x : x <> x2_0 -> den1 m x <> x2_0.
Proof. intros N E. unfold den1 in E. destruct (x2_integral Hmp H3 _ _ E) as [E'|E']; [|contradiction]. destruct (x2_integral Hmp H3 _ _ E') as [E2|E2]; now apply two_nz'. Qed.
Lemma quot_ok (x y : x2 m) : y <> x2_0 -> x2_mul (x2_mul x (x2_inv y)) y = x.
Proof. intros Hy. pose proof (x2_inv_ok Hmp H3 y Hy) as I0. transitivity (x2_mul x (x2_mul y (x2_inv y))); [ring|]. rewrite I0. ring. Qed.
Lemma W_decompress L (Pre : env -> Prop) (Hon : Prop) (c : list vec) : incl (cvcells c) L -> ok4 c -> (Hon -> zcap (p:=p) n k) -> (Hon -> Pre hval -> exists x, cyc x /\ reds True hval c (cmp x) /\ decomp_ok x) ->
  hcalc L Pre Hon (cyclotomic_decompress lb m ch xi0 hint2 c) ok12 (fun e o => forall (h : Prop) x, cyc x -> reds h e c (cmp x) -> x <> w6_1 \/ h -> wred h e o x) vcells.
Proof.
  intros Cc Kc HZ HH. destruct (c4 c Kc) as (g2 & g3 & g4 & g5 & ->). destruct Kc as [_ Kc].
  eapply h_post; [apply (l_decompress lb m Hp Hlb Hlb2 Hm ch n k HN HK xi0 hint2 Hh2l Hxi1 Hxi Hroom HB L Pre Hon g2 g3 g4 g5 Kc Cc HZ)| | |]; cbv beta; auto.
  - intros Hh HP. destruct (HH Hh HP) as (x & Cx & Hx & D). destruct x as [[[[[a0 a1] a2] a3] a4] a5]. cbn [cmp decomp_ok] in *.
    exists a1, a4, a2, a5, (x2_mul (num1 m xi0 a4 a2 a5) (x2_inv (den1 m a1))), (x2_mul (num0 m a2 a5) (x2_inv a4)).
    split; [auto|]. split; [apply Hh2|]. pose proof (decompress_g1 xi0 Hmp H3 H6 Hz6 _ _ _ _ _ _ Cx) as D1. fold (num1 m xi0 a4 a2 a5) in D1. split; [|split; [apply Hh2|]].
    + destruct (x2_dec a1) as [->|N]; [|now apply quot_ok, den_nz]. transitivity (x2_0 (m:=m)); [unfold den1; ring|]. rewrite <- D1. ring.
    + destruct (x2_dec a4) as [->|N]; [|now apply quot_ok]. destruct D as [D|D]; [now destruct D|]. unfold num0. rewrite D. ring.
  - intros e o _ _ R h x Cx Hx Hd. destruct x as [[[[[a0 a1] a2] a3] a4] a5]. cbn [cmp] in Hx. destruct (R h _ _ _ _ Hx) as (w1 & w0 & y1 & E1 & E0 & Ey & Eh & V).
    assert (Y : y1 = a3).
    { subst y1. pose proof (decompress_g1 xi0 Hmp H3 H6 Hz6 _ _ _ _ _ _ Cx) as D1. fold (num1 m xi0 a4 a2 a5) in D1. rewrite <- D1 in E1.
      destruct (x2_is0 a1) eqn:Z1.
      - apply x2_is0_eq in Z1. pose proof (decompress_g1' xi0 Hmp H3 H6 Hz6 _ _ _ _ _ _ Cx Z1) as D0. destruct (x2_dec a4) as [Z4|N4].
        + pose proof (degenerate xi0 Hmp H3 H6 Hz6 _ _ _ _ _ _ Cx Z1 Z4) as DG. destruct Hd as [Hd|Hh]; [contradiction|]. destruct (Eh Hh) as [_ Ew]. rewrite Hh2 in Ew. apply (list2_inj m) in Ew. rewrite Ew.
          unfold w6_1, w6_c in DG. apply (w6_eq (m:=m)) in DG as (_ & _ & A2 & A3 & _ & A5). unfold num0. rewrite A2, A3. ring.
        + apply (x2_cancel Hmp H3 _ _ a4 N4). rewrite E0, D0. reflexivity.
      - assert (N1 : a1 <> x2_0) by (intros X; rewrite X, (proj2 (x2_is0_eq _) eq_refl) in Z1; discriminate).
        apply (x2_cancel Hmp H3 _ _ (den1 m a1) (den_nz _ N1)). rewrite E1. unfold den1. ring. }
    unfold wred. rewrite Y in V. replace a0 with (dec_y0 m xi0 a1 a4 a2 a5 a3); [exact V|]. rewrite (decompress_g0 xi0 Hmp H3 H6 Hz6 _ _ _ _ _ _ Cx) at 1. unfold dec_y0. ring.
  - intros o _. apply incl_appl, incl_refl.
Qed.

(** ** exponentiation *)
Lemma pw_sq (x : w6) s : wmul (pw x s) (pw x s) = pw x (2 * s). Proof. rewrite <- (npow_2 _ _ _ _ _ _ WR), <- (npow_mul _ _ _ _ _ _ WR). f_equal. lia. Qed.
Lemma pw_S (x : w6) s : wmul (pw x s) x = pw x (s + 1). Proof. rewrite (npow_add _ _ _ _ _ _ WR), (npow_1 _ _ _ _ _ _ WR). reflexivity. Qed.
Lemma unit_cancel (x y z : w6) : unit12 z -> wmul x z = wmul y z -> x = y.
Proof. intros (i & Ei) E. transitivity (wmul (wmul x z) i); [transitivity (wmul x (wmul z i)); [rewrite Ei; ring|ring]|]. rewrite E. transitivity (wmul y (wmul z i)); [ring|rewrite Ei; ring]. Qed.
Lemma unit_mul (x y : w6) : unit12 x -> unit12 y -> unit12 (wmul x y). Proof. intros (i & Ei) (j & Ej). exists (wmul i j). transitivity (wmul (wmul x i) (wmul y j)); [ring|]. rewrite Ei, Ej. ring. Qed.
Lemma cyc_unit (x : w6) : cyc x -> unit12 x. Proof. intros C. exists (pw x (q ^ 6)). transitivity (wmul (pw x (q ^ 6)) x); [ring|exact (cyc_inv xi0 x C)]. Qed.
(** one signed digit *)
Lemma pw_digit (x : w6) s d (w : w6) : unit12 x -> (0 < s)%Z -> d = 1 \/ d = -1 -> (d = 1 -> w = wmul (pw x (Z.to_N (2 * s))) x) -> (d = -1 -> wmul w x = pw x (Z.to_N (2 * s))) -> w = pw x (Z.to_N (2 * s + d)).
Proof.
  intros U Hs [-> | ->] E1 E2.
  - rewrite E1 by auto. rewrite pw_S. f_equal. lia.
  - apply (unit_cancel _ _ x U). rewrite E2 by auto. rewrite pw_S. f_equal. lia.
Qed.
Lemma to_N2 s : 0 <= s -> (2 * Z.to_N s = Z.to_N (2 * s))%N. Proof. lia. Qed.
Section Pow.
Variables (L : list AV) (Pre : env -> Prop) (Hon : Prop) (a : vec) (exp naf : list Z).
Hypothesis Ca : vpre L a. Hypothesis Ka : ok12 a. Hypothesis HU : u64s exp.
Notation E := (limbs_value exp).
Lemma naf_facts : get_naf exp = Some naf -> mval (rev naf) = E /\ Forall signed_digit (rev naf) /\ 0 <= mval (rev naf).
Proof. intros H. destruct (C57_naf_correct exp naf HU H) as (H1 & H2 & _). rewrite mval_rev, H1. split; auto. split; [now apply Forall_rev|]. now apply limbs_bound. Qed.
End Pow.
Lemma W_pow L (Pre : env -> Prop) (Hon : Prop) (a : vec) exp : vpre L a -> ok12 a -> u64s exp -> (Hon -> exp <> [] /\ limbs_value exp <= 2 ^ (64 * Z.of_nat (length exp) - 1)) -> (Hon -> Pre hval -> exists x, wred True hval a x /\ unit12 x) ->
  hcalc L Pre Hon (fp12_pow lb m ch xi0 hint12 a exp) ok12 (fun e o => forall (h : Prop) x, wred h e a x -> unit12 x -> (h -> Hon) -> wred h e o (if Z.eqb (limbs_value exp) 0 then x else pw x (Z.to_N (limbs_value exp)))) vcells.
Proof.
  intros Ca Ka HU HT HH. unfold fp12_pow.
  eapply h_lift_bind; [intros Hh _ _; destruct (HT Hh); now apply C57_naf_total|]. intros naf Hn. destruct (naf_facts exp naf HU Hn) as (V & F & V0).
  eapply h_bind.
  { apply (h_foldM lb L Pre Hon _ (fun done (st : vec * bool) => Datatypes.snd st = negb (mval done =? 0) /\ ok12 (fst st) /\ (Datatypes.snd st = false -> fst st = a))
      (fun e done (st : vec * bool) => forall (h : Prop) x, wred h e a x -> unit12 x -> (h -> Hon) -> Datatypes.snd st = true -> wred h e (fst st) (pw x (Z.to_N (mval done)))) (fun st => vcells (fst st))).
    2:{ cbn. auto. } 2:{ cbn. discriminate. } 2:{ exact Ca. }
    intros done d rest [res st] El (I1 & I2 & I3). cbn [fst Datatypes.snd] in *. rewrite El in F, V0. destruct (prefix_facts done d rest F V0) as (D & P1 & P2 & _). set (s := mval done) in *. 
    assert (SQ : hcalc (vcells res ++ L) (fun e => Pre e /\ (forall (h : Prop) x, wred h e a x -> unit12 x -> (h -> Hon) -> st = true -> wred h e res (pw x (Z.to_N s)))) Hon (if st then mul12 res res else ret res)
        (fun o => ok12 o /\ (st = false -> o = a)) (fun e o => forall (h : Prop) x, wred h e a x -> unit12 x -> (h -> Hon) -> st = true -> wred h e o (pw x (Z.to_N (2 * s)))) vcells).
    { destruct st.
      - eapply h_post; [apply (W_mul _ _ _ res res); auto; try inc1| | |]; cbv beta.
        + intros Hh [HP R]. destruct (HH Hh HP) as (x & Hx & U). exists (pw x (Z.to_N s)), (pw x (Z.to_N s)). split; apply (R True); auto.
        + intros o Ko. split; auto. discriminate.
        + intros e o _ [HP R] RM h x Hx U Hh _. rewrite <- (to_N2 s) by lia. rewrite <- pw_sq. apply RM; auto.
        + intros o _. apply incl_appl, incl_refl.
      - apply h_ret; [split; auto|inc1|]. discriminate. }
    eapply h_bind; [exact SQ|]. cbv beta. clear SQ. intros r [Kr Er].
    rewrite (mval_snoc done d). fold s.
    destruct (Z.eqb_spec d 0) as [D0|D0].
    - subst d. rewrite Z.add_0_r. apply h_ret; cbn [fst Datatypes.snd].
      + split; [|split; auto]. rewrite I1. f_equal. apply eq_true_iff_eq. rewrite !Z.eqb_eq. lia.
      + inc1.
      + intros e [_ R]. exact R.
    - eapply h_assert_bind. { intros _ _. destruct D as [D|[D|D]]; subst d; auto; lia. } intros _.
      destruct st.
      + assert (S1 : 0 < s). { symmetry in I1. apply negb_true_iff, Z.eqb_neq in I1. lia. }
        match goal with |- CalcH.hcalc _ _ ?P _ _ _ _ _ => set (P3 := P) end.
        assert (DG : hcalc (vcells r ++ vcells res ++ L) P3 Hon (if d =? 1 then mul12 r a else divu12 r a) ok12
           (fun e o => forall (h : Prop) x, wred h e a x -> unit12 x -> (h -> Hon) -> wred h e o (pw x (Z.to_N (2 * s + d)))) vcells).
        { destruct (Z.eqb_spec d 1) as [D1|D1].
          - eapply h_post; [apply (W_mul _ _ _ r a); auto; try inc| | |]; cbv beta; auto.
            + intros Hh [[HP _] R]. destruct (HH Hh HP) as (x & Hx & U). do 2 eexists. split; [apply (R True x)|]; eauto.
            + intros e o _ [[HP _] R] RM h x Hx U Hh. replace (pw x (Z.to_N (2 * s + d))) with (wmul (pw x (Z.to_N (2 * s))) x) by (apply (pw_digit x s d); auto; lia). apply (RM h); [apply (R h x)|]; auto.
            + intros o _. apply incl_appl, incl_refl.
          - eapply h_post; [apply (W_divu _ _ _ r a); auto; try inc| | |]; cbv beta; auto.
            + intros Hh [[HP _] R]. destruct (HH Hh HP) as (x & Hx & U). do 2 eexists. split; [apply (R True x)|]; eauto.
            + intros e o _ [[HP _] R] RM h x Hx U Hh. destruct (RM h _ x (R h x Hx U Hh eq_refl) Hx Hh) as (w & Hw & Ew). rewrite <- (pw_digit x s d w); [exact Hw|auto|auto|lia|lia|auto].
            + intros o _. apply incl_appl, incl_refl. }
        eapply h_bind; [exact DG|]. cbv beta. intros r' Kr'. apply h_ret; cbn [fst Datatypes.snd].
        * split; [|split; [auto|discriminate]]. symmetry. apply negb_true_iff, Z.eqb_neq. lia.
        * inc1.
        * intros e [_ R] h x Hx U Hh _. apply R; auto.
      + assert (S0 : s = 0). { symmetry in I1. apply negb_false_iff, Z.eqb_eq in I1. auto. }
        assert (D1 : d = 1) by lia.
        eapply h_assert_bind. { intros _ _. rewrite D1. reflexivity. } intros _.
        apply h_ret; cbn [fst Datatypes.snd].
        * split; [|split; [auto|discriminate]]. symmetry. apply negb_true_iff, Z.eqb_neq. lia.
        * inc1.
        * intros e _ h x Hx U Hh _. rewrite (Er eq_refl). rewrite S0, D1. change (pw x (Z.to_N (2 * 0 + 1))) with (pw x 1). rewrite (npow_1 _ _ _ _ _ _ WR). exact Hx. }
  cbv beta. intros [r st] (I1 & I2 & I3). cbn [fst Datatypes.snd] in *. apply h_ret; [auto|inc1|].
  intros e [_ R] h x Hx U Hh. rewrite V in *. destruct (Z.eqb_spec (limbs_value exp) 0) as [Z0|Z0].
  - rewrite (I3 I1). exact Hx.
  - apply (R h x); auto.
Qed.
(** ** exponentiation in compressed form *)
Definition nodeg (h : Prop) (E : Z) (x : w6) : Prop := forall j, (1 <= j <= Z.to_N E + 1)%N -> pw x j <> w6_1 \/ h.
Definition decs (E : Z) (x : w6) : Prop := forall j, (1 <= j <= Z.to_N E + 1)%N -> decomp_ok (pw x j).
Definition ovec (a : vec) (o : option vec) : vec := match o with Some o => o | None => a end.
Lemma W_cpow L (Pre : env -> Prop) (Hon : Prop) (a : vec) exp : vpre L a -> ok12 a -> u64s exp -> (Hon -> zcap (p:=p) n k) -> (Hon -> exp <> [] /\ limbs_value exp <= 2 ^ (64 * Z.of_nat (length exp) - 1)) ->
  (Hon -> Pre hval -> exists x, wred True hval a x /\ cyc x /\ decs (limbs_value exp) x) ->
  hcalc L Pre Hon (cyclotomic_pow lb m ch xi0 hint2 hint12 a exp) ok12 (fun e o => forall (h : Prop) x, wred h e a x -> cyc x -> nodeg h (limbs_value exp) x -> (h -> Hon) -> wred h e o (if Z.eqb (limbs_value exp) 0 then x else pw x (Z.to_N (limbs_value exp)))) vcells.
Proof.
  intros Ca Ka HU HZ HT HH. unfold cyclotomic_pow.
  eapply h_bind; [apply (W_compress L Pre Hon a Ca Ka)|]. cbv beta. intros c0 Kc0.
  eapply h_lift_bind; [intros Hh _ _; destruct (HT Hh); now apply C57_naf_total|]. intros naf Hn. destruct (naf_facts exp naf HU Hn) as (V & F & V0). set (E := limbs_value exp) in *.
  set (P0 := fun e : env => Pre e /\ (forall (h : Prop) x, wred h e a x -> reds h e c0 (cmp x))).
  set (L0 := cvcells c0 ++ L). assert (Ca0 : vpre L0 a) by (unfold L0; inc).
  assert (HH0 : forall e, P0 e -> e = hval -> Hon -> exists x, wred True hval a x /\ cyc x /\ decs E x). { intros e [HP _] -> Hh. auto. }
  assert (SELF : forall x : w6, pw x 1 = x) by (intros; apply (npow_1 _ _ _ _ _ _ WR)).
  eapply h_bind.
  { apply (h_foldM lb L0 P0 Hon _ (fun done (st : list vec * option vec * bool) => Datatypes.snd st = negb (mval done =? 0) /\ ok4 (fst (fst st)) /\ ok12 (ovec a (Datatypes.snd (fst st))) /\ (Datatypes.snd st = false -> fst st = (c0, None)))
      (fun e done (st : list vec * option vec * bool) => forall (h : Prop) x, wred h e a x -> cyc x -> nodeg h E x -> (h -> Hon) -> Datatypes.snd st = true ->
         reds h e (fst (fst st)) (cmp (pw x (Z.to_N (mval done)))) /\ (forall done' d', done = done' ++ [d'] -> d' <> 0 -> wred h e (ovec a (Datatypes.snd (fst st))) (pw x (Z.to_N (mval done)))))
      (fun st => cvcells (fst (fst st)) ++ vcells (ovec a (Datatypes.snd (fst st))))).
    2:{ cbn [fst Datatypes.snd ovec]. auto. } 2:{ cbn [fst Datatypes.snd]. discriminate. } 2:{ cbn [fst Datatypes.snd ovec]. apply incl_app; [unfold L0; inc1|exact Ca0]. }
    intros done d rest [[cc out] st] El (I1 & I2 & I3 & I4). cbn [fst Datatypes.snd] in *. rewrite El in F, V0. destruct (prefix_facts done d rest F V0) as (D & P1 & P2 & P3). rewrite <- El, V in P3. set (s := mval done) in *.
    set (L1 := (cvcells cc ++ vcells (ovec a out)) ++ L0).
    match goal with |- CalcH.hcalc _ _ ?P _ _ _ _ _ => set (P1' := P) end.
    assert (RJ : 1 <= s -> (1 <= Z.to_N (2 * s) <= Z.to_N E + 1)%N) by (intros; specialize (P3 ltac:(lia)); lia).
    assert (SQ : hcalc L1 P1' Hon (if st then cyclotomic_square lb ch xi0 cc else ret cc)
        (fun o => ok4 o /\ (st = false -> o = c0)) (fun e o => forall (h : Prop) x, wred h e a x -> cyc x -> nodeg h E x -> (h -> Hon) -> st = true -> reds h e o (cmp (pw x (Z.to_N (2 * s))))) cvcells).
    { destruct st.
      - eapply h_post; [apply (W_square _ _ _ cc); auto; try (unfold L1; inc1)| | |]; cbv beta.
        + intros Hh [HP R]. destruct (HH0 _ HP eq_refl Hh) as (x & Hx & U & DD). exists (pw x (Z.to_N s)). apply (R True); auto. intros ? ?. auto.
        + intros o Ko. split; auto. discriminate.
        + intros e o _ [HP R] RM h x Hx U ND Hh _. rewrite <- (to_N2 s) by lia. rewrite <- pw_sq. apply RM; [now apply cyc_pow|]. apply (R h); auto.
        + intros o _. apply incl_appl, incl_refl.
      - specialize (I4 eq_refl). injection I4 as I4 I5. subst cc. apply h_ret; [split; auto|unfold L1; inc1|]. discriminate. }
    eapply h_bind; [exact SQ|]. cbv beta. clear SQ. intros r [Kr Er].
    rewrite (mval_snoc done d). fold s.
    destruct (Z.eqb_spec d 0) as [D0|D0].
    - subst d. rewrite Z.add_0_r. apply h_ret; cbn [fst Datatypes.snd].
      + split; [|split; [auto|split; [auto|]]]. { rewrite I1. f_equal. apply eq_true_iff_eq. rewrite !Z.eqb_eq. lia. } intros S0. specialize (I4 S0). injection I4 as I4 I5. now rewrite (Er S0), I5.
      + unfold L1. apply incl_app; inc1.
      + intros e [_ R] h x Hx U ND Hh S1. split; [auto|]. intros done' d' Ed Nd. apply app_inj_tail in Ed as [_ <-]. contradiction.
    - eapply h_assert_bind. { intros _ _. destruct D as [D|[D|D]]; subst d; auto; lia. } intros _.
      destruct st.
      + assert (S1 : 0 < s). { symmetry in I1. apply negb_true_iff, Z.eqb_neq in I1. lia. } specialize (RJ ltac:(lia)).
        match goal with |- CalcH.hcalc _ ?LL ?P _ _ _ _ _ => set (P2' := P); set (L2 := LL) end.
        assert (Ca2 : vpre L2 a) by (unfold L2, L1, L0; inc).
        eapply h_bind.
        { apply (W_decompress L2 P2' Hon r); auto. { unfold L2; inc1. }
          intros Hh [[HP _] R]. destruct (HH0 _ HP eq_refl Hh) as (x & Hx & U & DD). exists (pw x (Z.to_N (2 * s))). split; [now apply cyc_pow|]. split; [apply (R True); auto; intros ? ?; auto|]. apply DD. auto. }
        cbv beta. intros rr Krr.
        match goal with |- CalcH.hcalc _ ?LL ?P _ _ _ _ _ => set (P4 := P); set (L3 := LL) end.
        assert (RR : forall e, P4 e -> forall (h : Prop) x, wred h e a x -> cyc x -> nodeg h E x -> (h -> Hon) -> wred h e rr (pw x (Z.to_N (2 * s)))).
        { intros e [[[HP _] R] RD] h x Hx U ND Hh. apply RD; [now apply cyc_pow|apply (R h); auto|]. apply ND; auto. }
        assert (DG : hcalc L3 P4 Hon (if d =? 1 then mul12 rr a else divu12 rr a) ok12
           (fun e o => forall (h : Prop) x, wred h e a x -> cyc x -> nodeg h E x -> (h -> Hon) -> wred h e o (pw x (Z.to_N (2 * s + d)))) vcells).
        { assert (Ca3 : vpre L3 a) by (unfold L3; inc). assert (Cr3 : vpre L3 rr) by (unfold L3; inc).
          destruct (Z.eqb_spec d 1) as [D1|D1].
          - eapply h_post; [apply (W_mul _ _ _ rr a); auto| | |]; cbv beta; auto.
            + intros Hh HP4. destruct (HH0 _ (proj1 (proj1 (proj1 HP4))) eq_refl Hh) as (x & Hx & U & DD). do 2 eexists. split; [apply (RR _ HP4 True x); auto; intros ? ?; auto|eauto].
            + intros e o _ HP4 RM h x Hx U ND Hh. replace (pw x (Z.to_N (2 * s + d))) with (wmul (pw x (Z.to_N (2 * s))) x) by (apply (pw_digit x s d); auto using cyc_unit; lia). apply (RM h); [apply (RR e HP4 h x)|]; auto.
            + intros o _. apply incl_appl, incl_refl.
          - eapply h_post; [apply (W_divu _ _ _ rr a); auto| | |]; cbv beta; auto.
            + intros Hh HP4. destruct (HH0 _ (proj1 (proj1 (proj1 HP4))) eq_refl Hh) as (x & Hx & U & DD). do 2 eexists. split; [apply (RR _ HP4 True x); auto; intros ? ?; auto|]. split; [eauto|now apply cyc_unit].
            + intros e o _ HP4 RM h x Hx U ND Hh. destruct (RM h _ x (RR e HP4 h x Hx U ND Hh) Hx Hh) as (w & Hw & Ew). rewrite <- (pw_digit x s d w); [exact Hw|auto using cyc_unit|auto|lia|lia|auto].
            + intros o _. apply incl_appl, incl_refl. }
        eapply h_bind; [exact DG|]. cbv beta. intros r' Kr'.
        eapply h_bind; [apply W_compress; [inc|auto]|]. cbv beta. intros c' Kc'. apply h_ret; cbn [fst Datatypes.snd ovec].
        * split; [|split; [auto|split; [auto|discriminate]]]. symmetry. apply negb_true_iff, Z.eqb_neq. lia.
        * apply incl_app; inc1.
        * intros e [[_ R] RC] h x Hx U ND Hh _. specialize (R h x Hx U ND Hh). split; [now apply RC|]. intros. exact R.
      + assert (S0 : s = 0). { symmetry in I1. apply negb_false_iff, Z.eqb_eq in I1. auto. }
        assert (D1 : d = 1) by lia. specialize (I4 eq_refl). injection I4 as I4 I5. specialize (Er eq_refl). subst cc out r.
        eapply h_assert_bind. { intros _ _. rewrite D1. reflexivity. } intros _.
        apply h_ret; cbn [fst Datatypes.snd ovec].
        * split; [|split; [auto|split; [auto|discriminate]]]. symmetry. apply negb_true_iff, Z.eqb_neq. lia.
        * unfold L1; apply incl_app; inc1.
        * intros e [[[HP RC] _] _] h x Hx U ND Hh _. rewrite S0, D1. change (pw x (Z.to_N (2 * 0 + 1))) with (pw x 1). rewrite SELF. split; [now apply RC|]. intros. exact Hx. }
  cbv beta. intros [[cc out] st] (I1 & I2 & I3 & I4). cbn [fst Datatypes.snd] in *.
  eapply h_lift_bind. { intros Hh _ _. destruct naf as [|n0 naf]; [|eexists; reflexivity]. destruct (HT Hh) as [NE _]. destruct (C57_naf_correct exp [] HU Hn) as (_ & _ & LL & _). destruct exp; [now destruct NE|cbn [length] in LL; lia]. } intros n0 Hn0.
  destruct naf as [|n0' naf]; [discriminate|]. cbn [nth_error] in Hn0. injection Hn0 as ->. cbn [rev] in *. rewrite V in *.
  destruct (Z.eqb_spec n0 0) as [N0|N0].
  - eapply h_post; [apply (W_decompress _ _ Hon cc); auto; try inc1| | |]; cbv beta; auto.
    + intros Hh [HP R]. destruct (HH0 _ HP eq_refl Hh) as (x & Hx & U & DD). destruct (Z.eqb_spec E 0) as [Z0|Z0].
      * exists x. rewrite Z0 in *. cbn in I1. specialize (I4 I1). injection I4 as -> ->. split; [auto|]. split; [now apply HP|]. rewrite <- (SELF x). apply DD. lia.
      * exists (pw x (Z.to_N E)). split; [now apply cyc_pow|]. split; [apply (R True); auto; intros ? ?; auto|]. apply DD. lia.
    + intros e o _ [HP R] RM h x Hx U ND Hh. destruct (Z.eqb_spec E 0) as [Z0|Z0].
      * cbn in I1. specialize (I4 I1). injection I4 as -> ->. apply RM; [auto|now apply HP|]. rewrite <- (SELF x). apply ND. lia.
      * apply RM; [now apply cyc_pow|apply (R h); auto|]. apply ND. lia.
    + intros o _. apply incl_appl, incl_refl.
  - assert (E0 : E <> 0). { rewrite mval_snoc in V. apply Forall_app in F as [_ F]. apply Forall_inv in F. unfold signed_digit in F. lia. }
    apply h_ret; [auto|inc1|]. intros e [HP R] h x Hx U ND Hh. destruct (Z.eqb_spec E 0) as [Z0|Z0]; [contradiction|]. destruct (R h x Hx U ND Hh) as [_ R2]; [now rewrite I1|]. exact (R2 _ _ eq_refl N0).
Qed.
(** ** the hard part: every intermediate value is a power of the input *)
Section Hard.
Variables (m' : vec) (bx : Z) (Hon : Prop).
Hypothesis Hb : 0 < bx < 2 ^ 64.
Hypothesis Hb63 : Hon -> bx <= 2 ^ 63.
Hypothesis Hzc : Hon -> zcap (p:=p) n k.
Notation b := (Z.to_N bx).
Definition nodeg3 (h : Prop) (x : w6) : Prop := forall j, (1 <= j <= (b + 1) * b * b)%N -> pw x j <> w6_1 \/ h.
Definition decs3 (x : w6) : Prop := forall j, (1 <= j <= (b + 1) * b * b)%N -> decomp_ok (pw x j).
Definition RP (s : N) (e : env) (v : vec) : Prop := forall (h : Prop) (x : w6), wred h e m' x -> cyc x -> nodeg3 h x -> (h -> Hon) -> wred h e v (pw x s).
Definition HX (Pre : env -> Prop) : Prop := Hon -> Pre hval -> exists x : w6, wred True hval m' x /\ cyc x /\ decs3 x.
Lemma HX_R (Pre : env -> Prop) s (a : vec) : HX Pre -> (forall e, Pre e -> RP s e a) -> Hon -> Pre hval -> exists x : w6, wred True hval a (pw x s) /\ cyc x /\ decs3 x.
Proof. intros H R Hh HP. destruct (H Hh HP) as (x & Hx & C & D). exists x. split; auto. apply (R _ HP True); auto. intros ? ?. auto. Qed.
Lemma X_mul s t L (Pre : env -> Prop) (a c : vec) : HX Pre -> vpre L a -> vpre L c -> ok12 a -> ok12 c -> (forall e, Pre e -> RP s e a) -> (forall e, Pre e -> RP t e c) -> hcalc L Pre Hon (mul12 a c) ok12 (fun e o => RP (s + t) e o) vcells.
Proof.
  intros H Ca Cc Ka Kc Ra Rc. eapply h_post; [apply (W_mul L Pre Hon a c); auto| | |]; cbv beta; auto.
  - intros Hh HP. destruct (HX_R Pre s a H Ra Hh HP) as (x & Hx & _). destruct (HX_R Pre t c H Rc Hh HP) as (y & Hy & _). eauto.
  - intros e o _ HP R h x Hx C N Hh. rewrite (npow_add _ _ _ _ _ _ WR). apply R; [apply (Ra e HP)|apply (Rc e HP)]; auto.
  - intros o _. apply incl_appl, incl_refl.
Qed.
Lemma X_frob s j L (Pre : env -> Prop) (a : vec) : HX Pre -> vpre L a -> ok12 a -> (forall e, Pre e -> RP s e a) -> hcalc L Pre Hon (frobenius_map lb m ch ftab a j) ok12 (fun e o => RP (s * q ^ N.of_nat j) e o) vcells.
Proof.
  intros H Ca Ka Ra. eapply h_post; [apply (W_frob L Pre Hon a j); auto| | |]; cbv beta; auto.
  - intros Hh HP. destruct (HX_R Pre s a H Ra Hh HP) as (x & Hx & _). eauto.
  - intros e o _ HP R h x Hx C N Hh. rewrite (npow_mul _ _ _ _ _ _ WR). apply R. apply (Ra e HP); auto.
  - intros o _. apply incl_appl, incl_refl.
Qed.
Lemma X_conj s L (Pre : env -> Prop) (a : vec) : HX Pre -> vpre L a -> ok12 a -> (forall e, Pre e -> RP s e a) -> hcalc L Pre Hon (fp12_conjugate lb ch a) ok12 (fun e o => RP (s * q ^ 6) e o) vcells.
Proof.
  intros H Ca Ka Ra. eapply h_post; [apply (W_conj L Pre Hon a); auto| | |]; cbv beta; auto.
  - intros Hh HP. destruct (HX_R Pre s a H Ra Hh HP) as (x & Hx & _). eauto.
  - intros e o _ HP R h x Hx C N Hh. rewrite (npow_mul _ _ _ _ _ _ WR). apply R. apply (Ra e HP); auto.
  - intros o _. apply incl_appl, incl_refl.
Qed.
Lemma bx1 : limbs_value [bx] = bx. Proof. cbn [limbs_value]. lia. Qed.
Lemma X_pow s L (Pre : env -> Prop) (a : vec) : (1 <= s <= b * b)%N -> HX Pre -> vpre L a -> ok12 a -> (forall e, Pre e -> RP s e a) -> hcalc L Pre Hon (cyclotomic_pow lb m ch xi0 hint2 hint12 a [bx]) ok12 (fun e o => RP (s * b) e o) vcells.
Proof.
  intros Hs H Ca Ka Ra. 
  assert (RJ : forall j, (1 <= j <= Z.to_N bx + 1)%N -> (1 <= s * j <= (b + 1) * b * b)%N). { intros j Hj. clear - Hs Hj. split; [nia|]. transitivity (b * b * (b + 1))%N; [|lia]. apply N.mul_le_mono; lia. }
  eapply h_post; [apply (W_cpow L Pre Hon a [bx]); auto| | |]; rewrite ?bx1; cbv beta; auto.
  - constructor; [lia|constructor].
  - intros Hh. split; [discriminate|]. change (64 * Z.of_nat (length [bx]) - 1) with 63. auto.
  - intros Hh HP. destruct (HX_R Pre s a H Ra Hh HP) as (x & Hx & C & D). exists (pw x s). split; auto. split; [now apply cyc_pow|]. intros j Hj. rewrite <- (npow_mul _ _ _ _ _ _ WR). apply D. auto.
  - intros e o _ HP R h x Hx C N Hh. specialize (R h (pw x s) (Ra e HP h x Hx C N Hh) (cyc_pow xi0 _ _ C)).
    destruct (Z.eqb_spec bx 0) as [Z0|_]; [lia|]. rewrite (npow_mul _ _ _ _ _ _ WR). apply R; auto. intros j Hj. rewrite <- (npow_mul _ _ _ _ _ _ WR). apply N. auto.
  - intros o _. apply incl_appl, incl_refl.
Qed.
Definition HARD : N := (3 * (2 * (2 * (b * q * q ^ 6 + b * b * q ^ 6 + (2 * ((b * b * b + b * b * b * q) * q ^ 6) + (b + b * b * q) * q ^ 6 + b * b * q ^ 6)) + (2 * ((b * b * b + b * b * b * q) * q ^ 6) + (b + b * b * q) * q ^ 6 + b * b * q ^ 6) + b * b * q ^ 2)) + 2 * q ^ 6 + (q + (q ^ 2 + q ^ 3)))%N.
Lemma RP1 e : RP 1 e m'. Proof. intros h x Hx _ _ _. rewrite (npow_1 _ _ _ _ _ _ WR). exact Hx. Qed.
Ltac getR := let e := fresh "e" in let HP := fresh "HP" in intros e HP; first [apply RP1 | repeat (destruct HP as [HP ?]); eassumption].
Ltac getX := let Hh := fresh "Hh" in let HP := fresh "HP" in intros Hh HP; repeat (destruct HP as [HP _]); auto.
Ltac xM := eapply h_bind; [eapply X_mul; [getX | inc | inc | assumption | assumption | getR | getR] | cbv beta].
Ltac xF := eapply h_bind; [eapply X_frob; [getX | inc | assumption | getR] | cbv beta].
Ltac xC := eapply h_bind; [eapply X_conj; [getX | inc | assumption | getR] | cbv beta].
Ltac xP := eapply h_bind; [eapply X_pow; [ | getX | inc | assumption | getR] | cbv beta].
Lemma W_hard L (Pre : env -> Prop) : vpre L m' -> ok12 m' -> HX Pre -> hcalc L Pre Hon (hard_part_BN lb m ch xi0 ftab hint2 hint12 bx m') ok12 (fun e o => RP HARD e o) vcells.
Proof.
  intros Cm Km HXP. unfold hard_part_BN.
  assert (b1 : (1 <= b)%N) by lia. assert (b2 : (b <= b * b)%N) by nia.
  xF. intros mp K_mp.
  xF. intros mp2 K_mp2.
  xF. intros mp3 K_mp3.
  xM. intros mp2_mp3 K_mp2_mp3.
  xM. intros y0 K_y0.
  xC. intros y1 K_y1.
  xP. { lia. } intros mx K_mx.
  xF. intros mxp K_mxp.
  xP. { lia. } intros mx2 K_mx2.
  xF. intros mx2p K_mx2p.
  xF. intros y2 K_y2.
  xC. intros y5 K_y5.
  xP. { lia. } intros mx3 K_mx3.
  xF. intros mx3p K_mx3p.
  xC. intros y3 K_y3.
  xM. intros mx_mx2p K_mx_mx2p.
  xC. intros y4 K_y4.
  xM. intros mx3_mx3p K_mx3_mx3p.
  xC. intros y6 K_y6.
  xM. intros t0 K_t0.
  xM. intros t0a K_t0a.
  xM. intros t0b K_t0b.
  xM. intros t1 K_t1.
  xM. intros t1a K_t1a.
  xM. intros t0c K_t0c.
  xM. intros t1b K_t1b.
  xM. intros t1c K_t1c.
  xM. intros t1d K_t1d.
  xM. intros t0d K_t0d.
  xM. intros t1e K_t1e.
  xM. intros t0e K_t0e.
  eapply h_post; [eapply X_mul; [getX | inc | inc | assumption | assumption | getR | getR] | | |]; cbv beta; auto.
  - intros e o _ _ R. match type of R with RP ?s _ _ => replace HARD with s; [exact R|] end. unfold HARD. change (N.of_nat 1) with 1%N. change (N.of_nat 2) with 2%N. change (N.of_nat 3) with 3%N. rewrite N.pow_1_r. clear. generalize (q ^ 6)%N (q ^ 2)%N (q ^ 3)%N q. intros. generalize b. intros. ring.
  - intros o _. apply incl_appl, incl_refl.
Qed.
(** the BN polynomials: q(x) and the group order r(x) *)
Definition bn_qpoly (x : Z) : Z := 36 * x ^ 4 + 36 * x ^ 3 + 24 * x ^ 2 + 6 * x + 1.
Definition bn_rpoly (x : Z) : Z := 36 * x ^ 4 + 36 * x ^ 3 + 18 * x ^ 2 + 6 * x + 1.
Definition HA : N := (6 * (b * b * q ^ 2) + (q + (q ^ 2 + q ^ 3)))%N.
Definition HBq : N := (6 * (2 * (b * q + b * b + (2 * (b * b * b + b * b * b * q) + (b + b * b * q) + b * b)) + (2 * (b * b * b + b * b * b * q) + (b + b * b * q) + b * b)) + 2)%N.
Lemma HARD_AB : HARD = (HA + HBq * q ^ 6)%N. Proof. unfold HARD, HA, HBq. clear. generalize (q ^ 6)%N (q ^ 2)%N (q ^ 3)%N q. intros. generalize b. intros. ring. Qed.
Hypothesis Hq : mz = bn_qpoly bx.
Notation r := (Z.to_N (bn_rpoly bx)).
Lemma HA_eq : exists l, HA = (l + HBq)%N /\ (r * l = PHI (m:=m))%N.
Proof.
  assert (P : Z.of_N (PHI (m:=m)) = mz ^ 4 - mz ^ 2 + 1). { pose proof (PHI_q2 (m:=m)) as E. apply (f_equal Z.of_N) in E. rewrite !N2Z.inj_add, !N2Z.inj_pow in E. cbn [Z.of_N] in E. lia. }
  assert (R0 : 0 < bn_rpoly bx). { unfold bn_rpoly. assert (0 <= bx ^ 4) by (apply Z.pow_nonneg; lia). assert (0 <= bx ^ 3) by (apply Z.pow_nonneg; lia). assert (0 <= bx ^ 2) by (apply Z.pow_nonneg; lia). lia. }
  assert (ID : bn_rpoly bx * (Z.of_N HA - Z.of_N HBq) = mz ^ 4 - mz ^ 2 + 1).
  { unfold HA, HBq. rewrite ?N2Z.inj_add, ?N2Z.inj_mul, ?N2Z.inj_add, ?N2Z.inj_mul, ?N2Z.inj_add, ?N2Z.inj_mul, ?N2Z.inj_add, ?N2Z.inj_mul, ?N2Z.inj_add, ?N2Z.inj_pow, ?Z2N.id by lia. cbn [Z.of_N]. rewrite Hq. unfold bn_rpoly, bn_qpoly. clear. ring. }
  assert (GE : 0 < Z.of_N HA - Z.of_N HBq). { assert (0 < mz ^ 4 - mz ^ 2 + 1) by (assert (1 < mz ^ 2) by nia; replace (mz ^ 4) with (mz ^ 2 * mz ^ 2) by ring; nia). rewrite <- ID in H. revert R0 H. clear. generalize (bn_rpoly bx) (Z.of_N HA - Z.of_N HBq). intros. nia. }
  exists (HA - HBq)%N. split; [lia|]. apply N2Z.inj. rewrite P, <- ID, N2Z.inj_mul, N2Z.inj_sub, Z2N.id by lia. reflexivity.
Qed.
Lemma r_pos : r <> 0%N. Proof. assert (0 < bn_rpoly bx); [|lia]. unfold bn_rpoly. assert (0 <= bx ^ 4) by (apply Z.pow_nonneg; lia). assert (0 <= bx ^ 3) by (apply Z.pow_nonneg; lia). assert (0 <= bx ^ 2) by (apply Z.pow_nonneg; lia). lia. Qed.
Lemma hard_exp (x : w6) : cyc x -> pw x HARD = pw x (PHI (m:=m) / r).
Proof.
  intros C. destruct HA_eq as (l & E1 & E2). replace (PHI (m:=m) / r)%N with l. 2:{ rewrite <- E2, N.mul_comm. symmetry. apply N.div_mul. exact r_pos. }
  rewrite HARD_AB, E1. rewrite !(npow_add _ _ _ _ _ _ WR), (npow_mul _ _ _ _ _ _ WR).
  transitivity (wmul (pw x l) (wmul (pw (pw x HBq) (q ^ 6)) (pw x HBq))); [ring|]. rewrite (cyc_inv xi0 _ (cyc_pow xi0 _ _ C)). ring.
Qed.
End Hard.
(** ** the easy part, and everything *)
Notation EASY := ((q ^ 6 - 1) * (q ^ 2 + 1))%N.
Lemma unit_pow (x : w6) s : unit12 x -> unit12 (pw x s).
Proof. intros (y & E). exists (pw y s). rewrite <- (npow_base _ _ _ _ _ _ WR), E. apply (npow_one _ _ _ _ _ _ WR). Qed.
Lemma q6_pos : (0 < q ^ 6)%N. Proof. apply N.neq_0_lt_0, N.pow_nonzero. lia. Qed.
Lemma easy_cyc (x : w6) : unit12 x -> cyc (pw x EASY).
Proof.
  intros U. unfold Cyclo.cyc. rewrite <- (npow_mul _ _ _ _ _ _ WR). replace ((q ^ 6 - 1) * (q ^ 2 + 1) * PHI (m:=m))%N with (q ^ 12 - 1)%N by (rewrite <- PHI_q12; lia).
  apply (unit_cancel _ _ x U). rewrite pw_S. replace (q ^ 12 - 1 + 1)%N with (q ^ 12)%N by (pose proof q6_pos; rewrite (q12 (m:=m)); nia). rewrite (frob_q12 xi0 Hmp H3 H6 Hz6). ring.
Qed.
Lemma W_easy L (Pre : env -> Prop) (Hon : Prop) (a : vec) : vpre L a -> ok12 a -> (Hon -> zcap (p:=p) n k) -> (Hon -> Pre hval -> exists x, wred True hval a x /\ unit12 x) ->
  hcalc L Pre Hon (easy_part lb m ch xi0 ftab hint12 a) ok12 (fun e o => forall (h : Prop) x, wred h e a x -> unit12 x -> (h -> Hon) -> wred h e o (pw x EASY)) vcells.
Proof.
  intros Ca Ka HZ HH. unfold easy_part.
  eapply h_bind; [apply (W_conj L Pre Hon a Ca Ka HZ)|]. { intros Hh HP. destruct (HH Hh HP) as (x & Hx & _). eauto. } cbv beta. intros f1 K1.
  assert (F2 : forall e f1 f2, (forall (h : Prop) (x : w6), wred h e a x -> wred h e f1 (pw x (q ^ 6))) -> (forall (h : Prop) (x y : w6), wred h e f1 x -> wred h e a y -> (h -> Hon) -> exists w, wred h e f2 w /\ wmul w y = x) ->
     forall (h : Prop) (x : w6), wred h e a x -> unit12 x -> (h -> Hon) -> wred h e f2 (pw x (q ^ 6 - 1))).
  { intros e g1 g2 R1 R2 h x Hx U Hh. destruct (R2 h _ x (R1 h x Hx) Hx Hh) as (w & Hw & Ew). replace (pw x (q ^ 6 - 1)) with w; [exact Hw|]. apply (unit_cancel _ _ x U). rewrite Ew, pw_S. f_equal. pose proof q6_pos. lia. }
  eapply h_bind; [apply (W_divu _ _ Hon f1 a); auto; try inc|]. { intros Hh [HP R]. destruct (HH Hh HP) as (x & Hx & U). exists (pw x (q ^ 6)), x. auto. } cbv beta. intros f2 K2.
  eapply h_bind; [apply (W_frob _ _ Hon f2 2%nat); auto; try inc|]. { intros Hh [[HP R1] R2]. destruct (HH Hh HP) as (x & Hx & U). exists (pw x (q ^ 6 - 1)). eapply F2; eauto. } cbv beta. intros f3 K3.
  eapply h_post; [apply (W_mul _ _ Hon f3 f2); auto; try inc| | |]; cbv beta; auto.
  - intros Hh [[[HP R1] R2] R3]. destruct (HH Hh HP) as (x & Hx & U). exists (pw (pw x (q ^ 6 - 1)) (q ^ N.of_nat 2)), (pw x (q ^ 6 - 1)). assert (wred True hval f2 (pw x (q ^ 6 - 1))) by (eapply F2; eauto). auto.
  - intros e o _ [[[HP R1] R2] R3] R4 h x Hx U Hh. assert (V2 : wred h e f2 (pw x (q ^ 6 - 1))) by (eapply F2; eauto).
    replace (pw x EASY) with (wmul (pw (pw x (q ^ 6 - 1)) (q ^ N.of_nat 2)) (pw x (q ^ 6 - 1))); [auto|]. rewrite <- (npow_mul _ _ _ _ _ _ WR), <- (npow_add _ _ _ _ _ _ WR). f_equal. change (N.of_nat 2) with 2%N. lia.
  - intros o _. apply incl_appl, incl_refl.
Qed.
Lemma W_final (bx : Z) L (Pre : env -> Prop) (Hon : Prop) (a : vec) : 0 < bx < 2 ^ 64 -> (Hon -> bx <= 2 ^ 63) -> mz = bn_qpoly bx -> vpre L a -> ok12 a -> (Hon -> zcap (p:=p) n k) ->
  (Hon -> Pre hval -> exists x, wred True hval a x /\ unit12 x /\ decs3 bx (pw x EASY)) ->
  hcalc L Pre Hon (final_exp lb m ch xi0 ftab hint2 hint12 bx a) ok12 (fun e o => forall (h : Prop) x, wred h e a x -> unit12 x -> nodeg3 bx h (pw x EASY) -> (h -> Hon) -> wred h e o (pw x ((q ^ 12 - 1) / Z.to_N (bn_rpoly bx)))) vcells.
Proof.
  intros Hb Hb63 Hq Ca Ka HZ HH. unfold final_exp.
  eapply h_bind; [apply (W_easy L Pre Hon a Ca Ka HZ)|]. { intros Hh HP. destruct (HH Hh HP) as (x & Hx & U & _). eauto. } cbv beta. intros f0 K0.
  eapply h_post; [apply (W_hard f0 bx Hon Hb Hb63 HZ); auto; try inc| | |]; cbv beta; auto.
  - intros Hh [HP R]. destruct (HH Hh HP) as (x & Hx & U & D). exists (pw x EASY). split; [auto|]. split; auto. now apply easy_cyc.
  - intros e o _ [HP R] RH h x Hx U N Hh. specialize (RH h (pw x EASY) (R h x Hx U Hh) (easy_cyc x U) N Hh). rewrite (hard_exp bx Hb Hq _ (easy_cyc x U)) in RH. rewrite <- (npow_mul _ _ _ _ _ _ WR) in RH.
    replace ((q ^ 12 - 1) / Z.to_N (bn_rpoly bx))%N with (EASY * (PHI (m:=m) / Z.to_N (bn_rpoly bx)))%N; [exact RH|]. destruct (HA_eq bx Hb Hq) as (l & _ & E2). pose proof (r_pos bx Hb) as RZ. rewrite <- PHI_q12, <- E2.
    rewrite (N.mul_comm _ l) at 1. rewrite N.div_mul by exact RZ. replace (Z.to_N (bn_rpoly bx) * l * (q ^ 2 + 1) * (q ^ 6 - 1))%N with (EASY * l * Z.to_N (bn_rpoly bx))%N by ring. now rewrite N.div_mul by exact RZ.
  - intros o _. apply incl_appl, incl_refl.
Qed.
End High.
