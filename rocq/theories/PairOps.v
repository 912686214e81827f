(** The operations of Pairing.v on the values their points stand for. *)
From Coq Require Import ZArith NArith Znumtheory Lia List Bool Ring.
From Verif Require Import Field Spec Context ContextProofs Utils Logic Gate GateProofs ChainProofs IPProofs BitProofs PowProofs IPComp Derived
  Range RangeProofs RangeProofs2 RangeProofs3 RegionGets Calc CalcH RegionPrev RegionLast BigPrims BigNum BigInt BigSpec BigOps BigSel BigCmp BigSub BigCarry BigMod BigCrtNum BigCrt FpChip FpProofs FpProofs2 FpProofs3 FpField FpField2 FpField3 FieldExt ExtSpec ExtSpec2 ExtProofs ExtProofs2 ExtProofs3 ExtProofs4 ExtProofs5 FinalExp GaussOps RingPow CycSpec FrobSpec Cyclo FinalProofs FinalProofs2 FinalProofs3 FinalHigh Ecc MillerSpec Pairing EccG2.
Import ListNotations.
Local Open Scope Z_scope.

Section Pair.
Context {p : positive}.
Notation Fp := (F p).
Notation AV := (AV p).
Notation crt := (crt p).
Notation vec := (list crt).
Variables (lb : nat) (m : positive).
Notation env := (env (p:=p)).
Notation hcalc := (hcalc lb).
Hypothesis Hp : prime (Z.pos p).
Hypothesis Hlb : (1 <= lb < 64)%nat.
Hypothesis Hlb2 : (2 * lb <= CAPACITY p)%nat.
Hypothesis Hm : 1 < Z.pos m.
Add Ring Fring : (F_ring p) (morphism (F_morph p), constants [Fcst]).
Add Ring Fringm : (F_ring m) (morphism (F_morph m), constants [Fcst]).
Add Ring X2ringd : (x2_ring (m:=m)).
Variables (ch : fpchip p) (n k : nat).
Hypothesis HN : fpchip_new m n k = Some ch.
Hypothesis HK : fp_params (p:=p) lb m n k.
Notation mz := (Z.pos m).
Notation Fm := (F m).
Notation M2 := (2 ^ Z.of_nat (bits mz)).
Notation W := (2 ^ Z.of_nat (n * k + NUM_BITS p)).
Notation frep := (frep (p:=p) m n).
Notation fred := (fred (p:=p) m n).
Notation isk := (isk k).
Notation lg := (log2_ceil (Z.of_nat k)).
Notation islk := (islk k).
Notation room := (room (p:=p) lb n k).
Notation visk := (visk k).
Notation vism := (vism n k).
Notation vrep := (vrep m n).
Notation vred := (vred m n).
Notation red2 := (red2 (p:=p) m n).
Notation of2 := (of2 m).
Notation zv := (zv n).
Variable (xi0 : Z).
Hypothesis Hxi1 : 1 <= Z.abs xi0.
Notation lx := (Nat.max (log2_ceil (Z.abs xi0)) (log2_ceil (Z.abs (xi0 + 1)))).
Hypothesis Hxi : - 2 ^ 63 < xi0 < 2 ^ 63 - 1.
Hypothesis Hroom : room (lg + n + n + 9 + lx + 1).
Hypothesis HB : 8 * ((12 * Z.abs xi0 + 12) * (M2 * M2) + 2 * M2) < W.
Notation xi := (xi (m:=m) xi0).

Notation Q_add := (q_add lb m Hlb Hlb2 n k).
Notation Q_sub := (q_sub lb m Hlb Hlb2 n k).
Notation Q_smul := (q_smul lb m Hlb Hlb2 n k).
Notation Q_smul_add := (q_smul_add lb m Hlb Hlb2 n k).
Notation Q_mul := (q_mul lb m Hp Hlb Hlb2 Hm ch n k HN HK).
Notation Q_w6 := (q_w6 lb m Hlb Hlb2 n k).
Notation Q_select := (q_select lb m Hp Hlb Hlb2 n k).
Notation Q_carry := (q_carry lb m Hp Hlb Hlb2 Hm ch n k HN HK).
Notation Q_neg_divide := (q_neg_divide lb m Hp Hlb Hlb2 Hm ch n k HN HK).
Notation Q_divide := (q_divide lb m Hp Hlb Hlb2 Hm ch n k HN HK).
Notation Q_plus_one := (q_plus_one lb m Hlb Hlb2 ch n k HN HK).

Ltac inc1 := first [ assumption | apply incl_refl | (apply incl_appl; inc1) | (apply incl_appr; inc1) ].
Ltac inc := cbn [app]; first [ assumption | (unfold cpre, vpre; inc1) | (eapply cpre_incl; [eassumption|inc1]) | (eapply vpre_incl; [eassumption|inc1]) ].
Tactic Notation "qb" uconstr(lem) := eapply h_bind; [eapply lem; try inc; try eassumption; try lia|]; cbv beta; [..|let c := fresh "c" in let L := fresh "Lc" in let K := fresh "K" in intros c [L K]; cbn [app]].
Ltac zf1 :=
  match goal with
  | H : _ /\ _ |- _ => lazymatch type of H with (_ <= _ < _)%nat => fail | (_ <= _ < _)%Z => fail | _ => destruct H end
  | H : forall h x y, zv h ?e ?a x -> zv h ?e ?b y -> zv h ?e ?c _, A : zv ?h ?e ?a ?x, B : zv ?h ?e ?b ?y |- _ => specialize (H h x y A B); cbv beta in H
  | H : forall h x y, zv h ?e ?a x -> zv h ?e ?a y -> zv h ?e ?c _, A : zv ?h ?e ?a ?x |- _ => specialize (H h x x A A); cbv beta in H
  | H : forall h x, zv h ?e ?a x -> zv h ?e ?c _, A : zv ?h ?e ?a ?x |- _ => specialize (H h x A); cbv beta in H
  end.
Declare Scope x2_scope.
Notation "a + b" := (x2_add a b) : x2_scope.
Notation "a - b" := (x2_sub a b) : x2_scope.
Notation "a * b" := (x2_mul a b) : x2_scope.
Delimit Scope x2_scope with X.
Notation two := (x2_add (x2_1 (m:=m)) x2_1).
Notation three := (x2_add (x2_add (x2_1 (m:=m)) x2_1) x2_1).

Notation reds := (reds (p:=p) m n).
Notation viss := (viss (p:=p) n k).
Notation prs x := [fst (x : x2 m); snd (x : x2 m)].


Variables (hint2 hint12 : list Fm -> list Fm -> list Fm) (ftab : list (x2 m)).
Hypothesis Hmp : prime (Z.pos m).
Hypothesis H3 : Z.pos m mod 4 = 3.
Hypothesis H6 : Z.pos m mod 6 = 1.
Hypothesis Htab : forall j, (j < 12)%nat -> nth_error ftab j = Some (gam (m:=m) xi0 j).
Hypothesis Hz6 : primitive6 (m:=m) xi0.
Notation q := (N.pos m).
Notation w6 := (w6 (m:=m)).
Notation wmul := (w6_mul (m:=m) xi0).
Notation pw := (npow (w6_1 (m:=m)) wmul).
Notation WR := (w6_ring (m:=m) xi0).
Notation cyc := (cyc (m:=m) xi0).
Add Ring W6ringh : WR.
Notation wred := (wred m n).
Notation ok12 := (ok12 n k).
Notation unit12 := (unit12 m xi0).
(** the hint: [a * b.invert().unwrap_or_default()] *)
Hypothesis Hh2 : forall x y : x2 m, hint2 (prs x) (prs y) = prs (x2_mul x (x2_inv y)).
Lemma Hh2l_ : forall u v, length u = 2%nat -> length v = 2%nat -> length (hint2 u v) = 2%nat.
Proof. intros u v Lu Lv. destruct (list2 m u Lu) as [x ->], (list2 m v Lv) as [y ->]. now rewrite Hh2. Qed.
Lemma M2p' : 0 < M2. Proof. apply Z.pow_pos_nonneg; lia. Qed.
Lemma x2_div (w x y : x2 m) : y <> x2_0 -> x2_mul w y = x -> w = x2_mul x (x2_inv y).
Proof. intros N <-. pose proof (x2_inv_ok Hmp H3 y N) as E. transitivity (x2_mul w (x2_mul y (x2_inv y))); [rewrite E; ring|ring]. Qed.

(** ** A calculus of values: the inputs stand for [i] of type [T], [a] then stands for [f i] *)
Section Sem.
Context {T : Type} (I : Prop -> env -> T -> Prop).
Definition SZ (e : env) (a : vec) (f : T -> x2 m) (B : Z) : Prop := forall h i, I h e i -> exists z, zv h e a z /\ of2 z = f i /\ gle z B.
Definition SR (e : env) (a : vec) (f : T -> x2 m) : Prop := forall h i, I h e i -> red2 h e a (f i).
Definition SF (e : env) (a : crt) (f : T -> Fm) : Prop := forall h i, I h e i -> fred h e a (f i).
Lemma SR_SZ e a f : SR e a f -> SZ e a f M2.
Proof. intros H h i Hi. destruct (red2_zv lb m Hlb Hlb2 n h e a _ (H h i Hi)) as (z & Hz & Bz & Ez). exists z. split; auto. split; auto. exact (small_gle lb m Hlb Hlb2 z Bz). Qed.
Variables (L : list AV) (Pre : env -> Prop) (Hon : Prop).
Notation two_ b := (fun o : vec => length o = 2%nat /\ visk o b).
Lemma s_add a b ba bb f g A B : vpre L a -> vpre L b -> visk a ba -> visk b bb -> length a = 2%nat -> length b = 2%nat ->
  (forall e, Pre e -> SZ e a f A) -> (forall e, Pre e -> SZ e b g B) ->
  hcalc L Pre Hon (vec_add_no_carry a b) (two_ (Nat.max ba bb + 1)%nat) (fun e o => SZ e o (fun i => (f i + g i)%X) (A + B)) vcells.
Proof.
  intros Ca Cb Ka Kb La Lb_ Ha Hb. eapply h_post; [apply (Q_add L Pre Hon a b ba bb); auto| | |]; cbv beta; auto.
  - intros e o _ HP R h i Hi. destruct (Ha e HP h i Hi) as (x & X1 & X2 & X3), (Hb e HP h i Hi) as (y & Y1 & Y2 & Y3). exists (gadd x y). split; [apply R; auto|]. split; [rewrite of2_add; congruence|]. unfold gle, gadd in *. cbn [fst snd]. lia.
  - intros o _. apply incl_appl, incl_refl.
Qed.
Lemma s_sub a b ba bb f g A B : vpre L a -> vpre L b -> visk a ba -> visk b bb -> length a = 2%nat -> length b = 2%nat ->
  (forall e, Pre e -> SZ e a f A) -> (forall e, Pre e -> SZ e b g B) ->
  hcalc L Pre Hon (vec_sub_no_carry a b) (two_ (Nat.max ba bb + 1)%nat) (fun e o => SZ e o (fun i => (f i - g i)%X) (A + B)) vcells.
Proof.
  intros Ca Cb Ka Kb La Lb_ Ha Hb. eapply h_post; [apply (Q_sub L Pre Hon a b ba bb); auto| | |]; cbv beta; auto.
  - intros e o _ HP R h i Hi. destruct (Ha e HP h i Hi) as (x & X1 & X2 & X3), (Hb e HP h i Hi) as (y & Y1 & Y2 & Y3). exists (gsub x y). split; [apply R; auto|]. split; [rewrite of2_sub; congruence|]. apply (gsub_le lb m Hlb Hlb2); assumption.
  - intros o _. apply incl_appl, incl_refl.
Qed.
(** a difference of two reduced values is as small as each of them *)
Lemma s_sub_r a b f g : vpre L a -> vpre L b -> visk a n -> visk b n -> length a = 2%nat -> length b = 2%nat ->
  (forall e, Pre e -> SR e a f) -> (forall e, Pre e -> SR e b g) ->
  hcalc L Pre Hon (vec_sub_no_carry a b) (two_ (n + 1)%nat) (fun e o => SZ e o (fun i => (f i - g i)%X) M2) vcells.
Proof.
  intros Ca Cb Ka Kb La Lb_ Ha Hb. eapply h_post; [apply (Q_sub L Pre Hon a b n n); auto| | |]; cbv beta; auto.
  - intros o. now rewrite Nat.max_id.
  - intros e o _ HP R h i Hi. destruct (red2_zv lb m Hlb Hlb2 n h e a _ (Ha e HP h i Hi)) as (x & X1 & X2 & X3), (red2_zv lb m Hlb Hlb2 n h e b _ (Hb e HP h i Hi)) as (y & Y1 & Y2 & Y3). exists (gsub x y). split; [apply R; auto|]. split; [rewrite of2_sub; congruence|]. unfold gle, gsub. cbn [fst snd]. lia.
  - intros o _. apply incl_appl, incl_refl.
Qed.
Lemma s_mul a b ba bb f g A B : vpre L a -> vpre L b -> visk a ba -> visk b bb -> length a = 2%nat -> length b = 2%nat ->
  (forall e, Pre e -> SZ e a f A) -> (forall e, Pre e -> SZ e b g B) ->
  hcalc L Pre Hon (fp2_mul_no_carry ch a b) (two_ (lg + ba + bb + 1)%nat) (fun e o => SZ e o (fun i => (f i * g i)%X) (2 * (A * B))) vcells.
Proof.
  intros Ca Cb Ka Kb La Lb_ Ha Hb. eapply h_post; [apply (Q_mul L Pre Hon a b ba bb); auto| | |]; cbv beta; auto.
  - intros e o _ HP R h i Hi. destruct (Ha e HP h i Hi) as (x & X1 & X2 & X3), (Hb e HP h i Hi) as (y & Y1 & Y2 & Y3). exists (gmul x y). split; [apply R; auto|]. split; [rewrite of2_mul; congruence|]. apply (gmul_le lb m Hlb Hlb2); assumption.
  - intros o _. apply incl_appl, incl_refl.
Qed.
Lemma s_smul a ba s f A : vpre L a -> visk a ba -> length a = 2%nat -> - 2 ^ 63 < s < 2 ^ 63 -> (forall e, Pre e -> SZ e a f A) ->
  hcalc L Pre Hon (vec_scalar_mul_no_carry a s) (two_ (ba + log2_ceil (Z.abs s))%nat) (fun e o => SZ e o (fun i => (f i * (of_Z m s, F0))%X) (A * Z.abs s)) vcells.
Proof.
  intros Ca Ka La Hs Ha. eapply h_post; [apply (Q_smul L Pre Hon a ba s); auto| | |]; cbv beta; auto.
  - intros e o _ HP R h i Hi. destruct (Ha e HP h i Hi) as (x & X1 & X2 & X3 & X4). exists (gscale x s). split; [apply R; auto|]. split; [rewrite of2_scale; congruence|]. unfold gle, gscale. cbn [fst snd]. rewrite !Z.abs_mul. split; apply Z.mul_le_mono_nonneg_r; lia.
  - intros o _. apply incl_appl, incl_refl.
Qed.
Lemma s_w6 a ba f A : vpre L a -> visk a ba -> length a = 2%nat -> (forall e, Pre e -> SZ e a f A) ->
  hcalc L Pre Hon (mul_no_carry_w6 xi0 a) (two_ (ba + log2_ceil (Z.abs xi0) + 1)%nat) (fun e o => SZ e o (fun i => (f i * xi)%X) (A * (Z.abs xi0 + 1))) vcells.
Proof.
  intros Ca Ka La Ha. eapply h_post; [apply (Q_w6 L Pre Hon a ba xi0); auto; lia| | |]; cbv beta; auto.
  - intros e o _ HP R h i Hi. destruct (Ha e HP h i Hi) as (x & X1 & X2 & X3 & X4). exists (gmul x (xi0, 1)). split; [apply R; auto|]. split; [rewrite of2_mul, of2_xi; congruence|].
    assert (G : forall t, Z.abs t <= A -> Z.abs (t * xi0) <= A * Z.abs xi0) by (intros t Ht; rewrite Z.abs_mul; apply Z.mul_le_mono_nonneg_r; lia).
    pose proof (G _ X3). pose proof (G _ X4). unfold gle, gmul. cbn [fst snd]. lia.
  - intros o _. apply incl_appl, incl_refl.
Qed.
Lemma s_fpmul a x ba f g A : vpre L a -> cpre L x -> visk a ba -> isk x n -> length a = 2%nat -> (forall e, Pre e -> SZ e a f A) -> (forall e, Pre e -> SF e x g) ->
  hcalc L Pre Hon (vec_fp_mul_no_carry ch a x) (two_ (lg + ba + n)%nat) (fun e o => SZ e o (fun i => (f i * (g i, F0))%X) (A * M2)) vcells.
Proof.
  intros Ca Cx Ka Kx La Ha Hx. unfold vec_fp_mul_no_carry.
  assert (Kx' : islk x n) by (destruct Kx as [K1 K2]; split; [exact K1|lia]).
  eapply h_post; [apply (v_mapM lb L Pre Hon (fun c => fp_mul_no_carry ch c x) (fun c => islk c ba) (fun c => islk c (lg + ba + n)) (fun e c o => forall h u v, zrep n h e c u -> zrep n h e x v -> zrep n h e o (u * v)) a Ca Ka)| | |]; cbv beta.
  - intros c Hc Cc Kc. apply (z_mul lb m Hp Hlb Hlb2 Hm ch n k HN HK); auto.
  - intros o (H1 & H2). split; [congruence|exact H2].
  - intros e o _ HP R h i Hi. destruct (Ha e HP h i Hi) as (z & X1 & X2 & X3 & X4). destruct (fred_zrep lb m Hlb Hlb2 n h e x _ (Hx e HP h i Hi)) as (v & V1 & V2 & V3).
    destruct X1 as (a0 & a1 & -> & Z0 & Z1). inversion R as [|? o0 ? o' R0 R']; subst. inversion R' as [|? o1 ? o'' R1 R'']; subst. inversion R''; subst.
    exists (gscale z v). split; [exists o0, o1; cbn [fst snd gscale]; auto|]. split; [rewrite of2_scale, X2, V3; reflexivity|].
    pose proof M2p'. unfold gle, gscale. cbn [fst snd]. rewrite !Z.abs_mul. split; apply Z.mul_le_mono_nonneg; lia.
  - intros o _. apply incl_appl, incl_refl.
Qed.
Lemma s_carry a ba f B : vpre L a -> visk a ba -> (ba <= lg + n + n + 9 + lx + 1)%nat -> length a = 2%nat -> B <= (12 * Z.abs xi0 + 12) * (M2 * M2) + 2 * M2 -> (forall e, Pre e -> SZ e a f B) -> (Hon -> Pre hval -> exists i, I True hval i) ->
  hcalc L Pre Hon (vec_carry_mod lb ch a) (fun o => length o = 2%nat /\ vism o) (fun e o => SR e o f) vcells.
Proof.
  intros Ca Ka Hr La HBB Ha HH. eapply h_post; [apply (Q_carry L Pre Hon a ba Ca Ka)| | |]; cbv beta; auto.
  - eapply room_le; eauto.
  - intros Hh HP. destruct (HH Hh HP) as (i & Hi). destruct (Ha hval HP True i Hi) as (z & X1 & X2 & X3). exists z, B. split; auto. split; auto. revert HBB HB. clear. lia.
  - intros e o _ HP R h i Hi. destruct (Ha e HP h i Hi) as (z & X1 & X2 & X3). rewrite <- X2. apply (R h z B); auto. revert HBB HB. clear. lia.
  - intros o _. apply incl_appl, incl_refl.
Qed.
Lemma s_div a b ba bb f g A B : vpre L a -> vpre L b -> visk a ba -> visk b bb -> length a = 2%nat -> length b = 2%nat ->
  (Nat.max (lg + n + bb + 1) ba + 1 <= lg + n + n + 9 + lx + 1)%nat -> 2 * (M2 * B) + A <= (12 * Z.abs xi0 + 12) * (M2 * M2) + 2 * M2 ->
  (forall e, Pre e -> SZ e a f A) -> (forall e, Pre e -> SZ e b g B) -> (forall h e i, I h e i -> g i <> x2_0) -> (Hon -> Pre hval -> exists i, I True hval i) ->
  hcalc L Pre Hon (ext_divide_unsafe lb m ch 2 (fp2_mul_no_carry ch) hint2 a b) (fun o => length o = 2%nat /\ vism o) (fun e o => SR e o (fun i => (f i * x2_inv (g i))%X)) vcells.
Proof.
  intros Ca Cb Ka Kb La Lb_ Hr HBB Ha Hb HG HH. eapply h_post; [apply (Q_divide L Pre Hon a b ba bb A B hint2 Ca Cb Ka Kb La Lb_)| | |]; cbv beta; auto.
  - eapply room_le; eauto.
  - revert HBB HB. clear. lia.
  - exact Hh2l_.
  - intros Hh HP. destruct (HH Hh HP) as (i & Hi). destruct (Ha hval HP True i Hi) as (x & X1 & X2 & X3), (Hb hval HP True i Hi) as (y & Y1 & Y2 & Y3). exists x, y, (x2_mul (of2 x) (x2_inv (of2 y))). do 4 (split; [assumption|]). split; [apply Hh2|].
    pose proof (HG _ _ _ Hi) as N. rewrite <- Y2 in N. pose proof (x2_inv_ok Hmp H3 _ N) as E. transitivity (x2_mul (of2 x) (x2_mul (of2 y) (x2_inv (of2 y)))); [ring|rewrite E; ring].
  - intros e o _ HP R h i Hi. destruct (Ha e HP h i Hi) as (x & X1 & X2 & X3), (Hb e HP h i Hi) as (y & Y1 & Y2 & Y3). destruct (R h x y X1 Y1 X3 Y3) as (w & W1 & W2 & _).
    rewrite <- X2, <- Y2. rewrite <- (x2_div w (of2 x) (of2 y)); auto. rewrite Y2. eapply HG; eauto.
  - intros o _. apply incl_appl, incl_refl.
Qed.
Lemma s_neg_div nhint (Hnh : forall x y : x2 m, nhint (prs x) (prs y) = prs (x2_mul (x2_opp x) (x2_inv y))) a b ba bb f g A B : vpre L a -> vpre L b -> visk a ba -> visk b bb -> length a = 2%nat -> length b = 2%nat ->
  (Nat.max (lg + n + bb + 1) ba + 1 <= lg + n + n + 9 + lx + 1)%nat -> 2 * (M2 * B) + A <= (12 * Z.abs xi0 + 12) * (M2 * M2) + 2 * M2 ->
  (forall e, Pre e -> SZ e a f A) -> (forall e, Pre e -> SZ e b g B) -> (forall h e i, I h e i -> g i <> x2_0) -> (Hon -> Pre hval -> exists i, I True hval i) ->
  hcalc L Pre Hon (ext_neg_divide_unsafe lb m ch 2 (fp2_mul_no_carry ch) nhint a b) (fun o => length o = 2%nat /\ vism o) (fun e o => SR e o (fun i => (x2_opp (f i) * x2_inv (g i))%X)) vcells.
Proof.
  intros Ca Cb Ka Kb La Lb_ Hr HBB Ha Hb HG HH. eapply h_post; [apply (Q_neg_divide L Pre Hon a b ba bb A B nhint Ca Cb Ka Kb La Lb_)| | |]; cbv beta; auto.
  - eapply room_le; eauto.
  - revert HBB HB. clear. lia.
  - intros u v Lu Lv. destruct (list2 m u Lu) as [x ->], (list2 m v Lv) as [y ->]. now rewrite Hnh.
  - intros Hh HP. destruct (HH Hh HP) as (i & Hi). destruct (Ha hval HP True i Hi) as (x & X1 & X2 & X3), (Hb hval HP True i Hi) as (y & Y1 & Y2 & Y3). exists x, y, (x2_mul (x2_opp (of2 x)) (x2_inv (of2 y))). do 4 (split; [assumption|]). split; [apply Hnh|].
    pose proof (HG _ _ _ Hi) as N. rewrite <- Y2 in N. pose proof (x2_inv_ok Hmp H3 _ N) as E. transitivity (x2_mul (x2_opp (of2 x)) (x2_mul (of2 y) (x2_inv (of2 y)))); [ring|rewrite E; ring].
  - intros e o _ HP R h i Hi. destruct (Ha e HP h i Hi) as (x & X1 & X2 & X3), (Hb e HP h i Hi) as (y & Y1 & Y2 & Y3). destruct (R h x y X1 Y1 X3 Y3) as (w & W1 & W2 & _).
    rewrite <- X2, <- Y2. rewrite <- (x2_div w (x2_opp (of2 x)) (of2 y)); auto. rewrite Y2. eapply HG; eauto.
  - intros o _. apply incl_appl, incl_refl.
Qed.
End Sem.

(** ** Points *)
Notation g2pt := (g2pt p).
Notation ecpt := (ecpt p).
Notation pt2 := (pt2 (m:=m)).
Definition gred (h : Prop) (e : env) (P : g2pt) (A : pt2) : Prop := red2 h e (gx P) (fst A) /\ red2 h e (gy P) (snd A).
Definition okg (P : g2pt) : Prop := (length (gx P) = 2%nat /\ vism (gx P)) /\ (length (gy P) = 2%nat /\ vism (gy P)).
Definition gcells (P : g2pt) : list AV := vcells (gx P) ++ vcells (gy P).
Definition pred1 (h : Prop) (e : env) (P : ecpt) (A : Fm * Fm) : Prop := fred h e (px P) (fst A) /\ fred h e (py P) (snd A).
Definition okp (P : ecpt) : Prop := isk (px P) n /\ isk (py P) n.
Definition pcells (P : ecpt) : list AV := ccells (px P) ++ ccells (py P).
Lemma gcells_x L P : incl (gcells P) L -> vpre L (gx P). Proof. intros H x Hx. apply H, in_or_app. auto. Qed.
Lemma gcells_y L P : incl (gcells P) L -> vpre L (gy P). Proof. intros H x Hx. apply H, in_or_app. auto. Qed.
Lemma pcells_x L P : incl (pcells P) L -> cpre L (px P). Proof. intros H x Hx. apply H, in_or_app. auto. Qed.
Lemma pcells_y L P : incl (pcells P) L -> cpre L (py P). Proof. intros H x Hx. apply H, in_or_app. auto. Qed.
Lemma red2_eq h e a x y : red2 h e a x -> x = y -> red2 h e a y. Proof. now intros ? <-. Qed.
Lemma x2_inv_eq (x y : x2 m) : x = y -> x2_inv x = x2_inv y. Proof. now intros ->. Qed.

Ltac getS := let e := fresh "e" in let HP := fresh "HP" in intros e HP; repeat (destruct HP as [HP ?]);
  first [ eassumption
        | match goal with H : forall e, SR _ e ?a _ |- SZ _ _ ?a _ _ => apply (SR_SZ _ e a), H end
        | match goal with H : forall e, SR _ e ?a _ |- SR _ _ ?a _ => apply H end
        | match goal with H : forall e, SF _ e ?a _ |- SF _ _ ?a _ => apply H end
        | eapply (SR_SZ _ e); eassumption ].
Tactic Notation "sb" uconstr(lem) := eapply h_bind; [eapply lem; try inc; try eassumption; try getS; try lia|]; cbv beta;
  [..|let c := fresh "c" in let L := fresh "Lc" in let K := fresh "K" in intros c [L K]; cbn [app]; try (pose proof (vism_visk _ _ _ K))].
Ltac bnd2 := pose proof M2p' as MP; pose proof (Z.abs_nonneg xi0) as XP; change (Z.abs 2) with 2; change (Z.abs 3) with 3; change (Z.abs (-3)) with 3; revert MP XP; generalize M2 (Z.abs xi0); clear; intros; nia.
Lemma G_double L (Pre : env -> Prop) (Hon : Prop) (P : g2pt) : incl (gcells P) L -> okg P -> (Hon -> Pre hval -> exists A S : pt2, gred True hval P A /\ pt_dbl A = Some S) ->
  hcalc L Pre Hon (g2_double lb m ch hint2 P) okg (fun e o => forall h (A S : pt2), gred h e P A -> pt_dbl A = Some S -> gred h e o S) gcells.
Proof.
  intros C [[Lx Kx] [Ly Ky]] HH. pose proof (gcells_x _ _ C) as Cx. pose proof (gcells_y _ _ C) as Cy.
  set (I := fun (h : Prop) (e : env) (A : pt2) => gred h e P A /\ snd A <> x2_0).
  assert (BX : forall e, SR I e (gx P) fst) by (intros e h A [[H _] _]; exact H). assert (BY : forall e, SR I e (gy P) snd) by (intros e h A [[_ H] _]; exact H).
  assert (DN : forall A S : pt2, pt_dbl A = Some S -> snd A <> x2_0). { intros A S E N. unfold pt_dbl in E. rewrite (proj2 (x2_is0_eq _) N) in E. discriminate. }
  assert (H0 : Hon -> Pre hval -> exists A, I True hval A). { intros Hh HP. destruct (HH Hh HP) as (A & S & G & E). exists A. split; eauto. }
  pose proof (vism_visk _ _ _ Kx) as Vx. pose proof (vism_visk _ _ _ Ky) as Vy. unfold g2_double.
  sb (s_smul I). sb (s_smul I). sb (s_mul I).
  assert (LG2 : log2_ceil (Z.abs 2) = 1%nat) by reflexivity. assert (LG3 : log2_ceil (Z.abs 3) = 2%nat) by reflexivity. rewrite LG2, LG3 in *.
  eapply h_bind; [eapply (s_div I); try inc; try eassumption; try getS|cbv beta].
  { lia. }
  { bnd2. }
  { intros h e A [_ N]. rewrite two_ok. intros E. destruct (x2_integral Hmp H3 _ _ E) as [E'|E']; [auto|]. exact (two_nz Hmp H3 H6 E'). }
  { intros Hh HP. apply H0; tauto. }
  intros lam [Llam Klam]. pose proof (vism_visk _ _ _ Klam) as Vlam. cbn [app].
  sb (s_mul I). sb (s_smul I). rewrite LG2 in *. sb (s_sub I).
  eapply h_bind; [eapply (s_carry I); try inc; try eassumption; try getS|cbv beta].
  { lia. }
  { bnd2. }
  { intros Hh HP. apply H0; tauto. }
  intros x3 [Lx3 Kx3]. pose proof (vism_visk _ _ _ Kx3) as Vx3. cbn [app].
  eapply h_bind; [eapply (s_sub_r I); try inc; try eassumption; try getS|cbv beta]. intros dx [Ldx Kdx]. cbn [app].
  sb (s_mul I). sb (s_sub I).
  eapply h_bind; [eapply (s_carry I); try inc; try eassumption; try getS|cbv beta].
  { lia. }
  { bnd2. }
  { intros Hh HP. apply H0; tauto. }
  intros y3 [Ly3 Ky3]. cbn [app].
  apply h_ret.
  - split; auto.
  - unfold gcells. cbn [gx gy]. apply incl_app; inc1.
  - intros e HP h A S GA ES. assert (IA : I h e A) by (split; eauto). unfold pt_dbl in ES. destruct (x2_is0 (snd A)); [discriminate|]. injection ES as <-.
    repeat (destruct HP as [HP ?]). split; cbn [gx gy third fst snd].
    + eapply red2_eq; [match goal with H : SR I e x3 _ |- _ => exact (H h A IA) end|]. cbv beta. rewrite two_ok, three_ok. rewrite (x2_inv_eq (snd A * two)%X (two * snd A)%X) by ring. ring.
    + eapply red2_eq; [match goal with H : SR I e y3 _ |- _ => exact (H h A IA) end|]. cbv beta. rewrite two_ok, three_ok. rewrite (x2_inv_eq (snd A * two)%X (two * snd A)%X) by ring. ring.
Qed.

Lemma G_add L (Pre : env -> Prop) (Hon : Prop) (P Q : g2pt) : incl (gcells P) L -> incl (gcells Q) L -> okg P -> okg Q -> (Hon -> Pre hval -> exists A B S : pt2, gred True hval P A /\ gred True hval Q B /\ pt_add A B = Some S) ->
  hcalc L Pre Hon (g2_add_unequal lb m ch hint2 P Q) okg (fun e o => forall h (A B S : pt2), gred h e P A -> gred h e Q B -> pt_add A B = Some S -> gred h e o S) gcells.
Proof.
  intros C C' [[Lx Kx] [Ly Ky]] [[Lx' Kx'] [Ly' Ky']] HH. pose proof (gcells_x _ _ C) as Cx. pose proof (gcells_y _ _ C) as Cy. pose proof (gcells_x _ _ C') as Cx'. pose proof (gcells_y _ _ C') as Cy'.
  set (I := fun (h : Prop) (e : env) (AB : pt2 * pt2) => gred h e P (fst AB) /\ gred h e Q (snd AB) /\ fst (fst AB) <> fst (snd AB)).
  assert (BX : forall e, SR I e (gx P) (fun i => fst (fst i))) by (intros e h A [[H _] _]; exact H). assert (BY : forall e, SR I e (gy P) (fun i => snd (fst i))) by (intros e h A [[_ H] _]; exact H).
  assert (BX' : forall e, SR I e (gx Q) (fun i => fst (snd i))) by (intros e h A [_ [[H _] _]]; exact H). assert (BY' : forall e, SR I e (gy Q) (fun i => snd (snd i))) by (intros e h A [_ [[_ H] _]]; exact H).
  assert (DN : forall A B S : pt2, pt_add A B = Some S -> fst A <> fst B). { intros A B S E N. unfold pt_add in E. rewrite (proj2 (same_x_eq _ _) N) in E. discriminate. }
  assert (H0 : Hon -> Pre hval -> exists AB, I True hval AB). { intros Hh HP. destruct (HH Hh HP) as (A & B & S & G & G' & E). exists (A, B). split; [auto|split; [auto|]]. cbn [fst snd]. eauto. }
  pose proof (vism_visk _ _ _ Kx) as Vx. pose proof (vism_visk _ _ _ Ky) as Vy. pose proof (vism_visk _ _ _ Kx') as Vx'. pose proof (vism_visk _ _ _ Ky') as Vy'. unfold g2_add_unequal.
  sb (s_sub_r I). sb (s_sub_r I).
  eapply h_bind; [eapply (s_div I); try inc; try eassumption; try getS|cbv beta].
  { lia. }
  { bnd2. }
  { intros h e [A B] (_ & _ & N) E. apply N. cbn [fst snd] in *. symmetry. now apply x2_sub0. }
  { intros Hh HP. apply H0; tauto. }
  intros lam [Llam Klam]. pose proof (vism_visk _ _ _ Klam) as Vlam. cbn [app].
  sb (s_mul I). sb (s_sub I). sb (s_sub I).
  eapply h_bind; [eapply (s_carry I); try inc; try eassumption; try getS|cbv beta].
  { lia. }
  { bnd2. }
  { intros Hh HP. apply H0; tauto. }
  intros x3 [Lx3 Kx3]. pose proof (vism_visk _ _ _ Kx3) as Vx3. cbn [app].
  eapply h_bind; [eapply (s_sub_r I); try inc; try eassumption; try getS|cbv beta]. intros dx [Ldx Kdx]. cbn [app].
  sb (s_mul I). sb (s_sub I).
  eapply h_bind; [eapply (s_carry I); try inc; try eassumption; try getS|cbv beta].
  { lia. }
  { bnd2. }
  { intros Hh HP. apply H0; tauto. }
  intros y3 [Ly3 Ky3]. cbn [app].
  apply h_ret.
  - split; auto.
  - unfold gcells. cbn [gx gy]. apply incl_app; inc1.
  - intros e HP h A B S GA GB ES. assert (IA : I h e (A, B)) by (split; [auto|split; [auto|]]; cbn [fst snd]; eauto). unfold pt_add in ES. destruct (same_x (fst A) (fst B)); [discriminate|]. injection ES as <-.
    repeat (destruct HP as [HP ?]). split; cbn [gx gy third fst snd].
    + match goal with H : SR I e x3 _ |- _ => exact (H h _ IA) end.
    + match goal with H : SR I e y3 _ |- _ => exact (H h _ IA) end.
Qed.
Lemma G_sub nhint (Hnh : forall x y : x2 m, nhint (prs x) (prs y) = prs (x2_mul (x2_opp x) (x2_inv y))) L (Pre : env -> Prop) (Hon : Prop) (P Q : g2pt) : incl (gcells P) L -> incl (gcells Q) L -> okg P -> okg Q -> (Hon -> Pre hval -> exists A B S : pt2, gred True hval P A /\ gred True hval Q B /\ pt_add A (pt_neg B) = Some S) ->
  hcalc L Pre Hon (g2_sub_unequal lb m ch nhint P Q) okg (fun e o => forall h (A B S : pt2), gred h e P A -> gred h e Q B -> pt_add A (pt_neg B) = Some S -> gred h e o S) gcells.
Proof.
  intros C C' [[Lx Kx] [Ly Ky]] [[Lx' Kx'] [Ly' Ky']] HH. pose proof (gcells_x _ _ C) as Cx. pose proof (gcells_y _ _ C) as Cy. pose proof (gcells_x _ _ C') as Cx'. pose proof (gcells_y _ _ C') as Cy'.
  set (I := fun (h : Prop) (e : env) (AB : pt2 * pt2) => gred h e P (fst AB) /\ gred h e Q (snd AB) /\ fst (fst AB) <> fst (snd AB)).
  assert (BX : forall e, SR I e (gx P) (fun i => fst (fst i))) by (intros e h A [[H _] _]; exact H). assert (BY : forall e, SR I e (gy P) (fun i => snd (fst i))) by (intros e h A [[_ H] _]; exact H).
  assert (BX' : forall e, SR I e (gx Q) (fun i => fst (snd i))) by (intros e h A [_ [[H _] _]]; exact H). assert (BY' : forall e, SR I e (gy Q) (fun i => snd (snd i))) by (intros e h A [_ [[_ H] _]]; exact H).
  assert (DN : forall A B S : pt2, pt_add A (pt_neg B) = Some S -> fst A <> fst B). { intros A B S E N. unfold pt_add, pt_neg in E. cbn [fst] in E. rewrite (proj2 (same_x_eq _ _) N) in E. discriminate. }
  assert (H0 : Hon -> Pre hval -> exists AB, I True hval AB). { intros Hh HP. destruct (HH Hh HP) as (A & B & S & G & G' & E). exists (A, B). split; [auto|split; [auto|]]. cbn [fst snd]. eauto. }
  pose proof (vism_visk _ _ _ Kx) as Vx. pose proof (vism_visk _ _ _ Ky) as Vy. pose proof (vism_visk _ _ _ Kx') as Vx'. pose proof (vism_visk _ _ _ Ky') as Vy'. unfold g2_sub_unequal.
  sb (s_sub_r I). sb (s_add I).
  eapply h_bind; [eapply (s_neg_div I _ _ _ nhint Hnh); try inc; try eassumption; try getS|cbv beta].
  { lia. }
  { bnd2. }
  { intros h e [A B] (_ & _ & N) E. apply N. cbn [fst snd] in *. symmetry. now apply x2_sub0. }
  { intros Hh HP. apply H0; tauto. }
  intros lam [Llam Klam]. pose proof (vism_visk _ _ _ Klam) as Vlam. cbn [app].
  sb (s_mul I). sb (s_sub I). sb (s_sub I).
  eapply h_bind; [eapply (s_carry I); try inc; try eassumption; try getS|cbv beta].
  { lia. }
  { bnd2. }
  { intros Hh HP. apply H0; tauto. }
  intros x3 [Lx3 Kx3]. pose proof (vism_visk _ _ _ Kx3) as Vx3. cbn [app].
  eapply h_bind; [eapply (s_sub_r I); try inc; try eassumption; try getS|cbv beta]. intros dx [Ldx Kdx]. cbn [app].
  sb (s_mul I). sb (s_sub I).
  eapply h_bind; [eapply (s_carry I); try inc; try eassumption; try getS|cbv beta].
  { lia. }
  { bnd2. }
  { intros Hh HP. apply H0; tauto. }
  intros y3 [Ly3 Ky3]. cbn [app].
  apply h_ret.
  - split; auto.
  - unfold gcells. cbn [gx gy]. apply incl_app; inc1.
  - intros e HP h A B S GA GB ES. assert (IA : I h e (A, B)) by (split; [auto|split; [auto|]]; cbn [fst snd]; eauto). unfold pt_add, pt_neg in ES. cbn [fst snd] in ES. destruct (same_x (fst A) (fst B)); [discriminate|]. injection ES as <-.
    repeat (destruct HP as [HP ?]). split; cbn [gx gy third fst snd].
    + eapply red2_eq; [match goal with H : SR I e x3 _ |- _ => exact (H h _ IA) end|]. cbn [fst snd]. ring.
    + eapply red2_eq; [match goal with H : SR I e y3 _ |- _ => exact (H h _ IA) end|]. cbn [fst snd]. ring.
Qed.
Lemma G_negate L (Pre : env -> Prop) (Hon : Prop) (P : g2pt) : incl (gcells P) L -> okg P -> (Hon -> zcap (p:=p) n k) -> (Hon -> Pre hval -> exists A : pt2, gred True hval P A) ->
  hcalc L Pre Hon (g2_negate lb ch P) okg (fun e o => forall h (A : pt2), gred h e P A -> gred h e o (pt_neg A)) gcells.
Proof.
  intros C [[Lx Kx] [Ly Ky]] HZ HH. pose proof (gcells_x _ _ C) as Cx. pose proof (gcells_y _ _ C) as Cy. unfold g2_negate.
  eapply h_bind; [apply (v_negate lb m Hp Hlb Hlb2 Hm ch n k HN HK L Pre Hon (gy P) Cy Ky HZ)|]; cbv beta.
  { intros Hh HP. destruct (HH Hh HP) as (A & _ & G). exists (prs (snd A)). exact G. }
  intros y [Ly1 Ky1]. apply h_ret.
  - split; cbn [gx gy]; [auto|]. split; [congruence|auto].
  - unfold gcells. cbn [gx gy]. apply incl_app; inc.
  - intros e [HP R] h A [G1 G2]. split; cbn [gx gy pt_neg fst snd]; auto. apply (R h _ G2).
Qed.
(** pairing.rs:401-446 on values *)
Lemma l2_mul L (Pre : env -> Prop) (Hon : Prop) (a b : vec) : vpre L a -> vpre L b -> length a = 2%nat -> vism a -> length b = 2%nat -> vism b -> (Hon -> Pre hval -> exists x y, red2 True hval a x /\ red2 True hval b y) ->
  hcalc L Pre Hon (ext_mul lb ch (fp2_mul_no_carry ch) a b) (fun o => length o = 2%nat /\ vism o) (fun e o => forall h x y, red2 h e a x -> red2 h e b y -> red2 h e o (x2_mul x y)) vcells.
Proof.
  intros Ca Cb La Ka Lb_ Kb HH. set (I := fun (h : Prop) (e : env) (xy : x2 m * x2 m) => red2 h e a (fst xy) /\ red2 h e b (snd xy)).
  assert (BX : forall e, SR I e a (fun i => fst i)) by (intros e h i [H _]; exact H). assert (BY : forall e, SR I e b (fun i => snd i)) by (intros e h i [_ H]; exact H).
  pose proof (vism_visk _ _ _ Ka) as Va. pose proof (vism_visk _ _ _ Kb) as Vb. unfold ext_mul.
  sb (s_mul I).
  eapply h_post; [eapply (s_carry I); try inc; try eassumption; try getS| | |]; cbv beta.
  - lia.
  - bnd2.
  - intros Hh [HP _]. destruct (HH Hh HP) as (x & y & X & Y). exists (x, y). split; auto.
  - auto.
  - intros e o _ _ R h x y X Y. apply (R h (x, y)). split; auto.
  - intros o _. apply incl_appl, incl_refl.
Qed.
Section Frob.
Variables (L : list AV) (Pre : env -> Prop) (Hon : Prop) (Q : g2pt) (c2 c3 : vec) (g2 g3 : x2 m).
Hypothesis CQ : incl (gcells Q) L.
Hypothesis C2 : vpre L c2.
Hypothesis C3 : vpre L c3.
Hypothesis OQ : okg Q.
Hypothesis O2 : length c2 = 2%nat /\ vism c2.
Hypothesis O3 : length c3 = 2%nat /\ vism c3.
Hypothesis HZ : Hon -> zcap (p:=p) n k.
Hypothesis HV : forall e, Pre e -> forall h : Prop, (h -> e = hval) -> red2 h e c2 g2 /\ red2 h e c3 g3.
Hypothesis HH : Hon -> Pre hval -> exists A : pt2, gred True hval Q A.
Ltac fr2 := intros Hh HP; destruct (HH Hh ltac:(tauto)) as (A & G1 & G2); eauto.
Lemma G_frob : hcalc L Pre Hon (twisted_frobenius lb ch Q c2 c3) okg (fun e o => forall h (A : pt2), gred h e Q A -> gred h e o (x2_mul g2 (x2_conj (fst A)), x2_mul g3 (x2_conj (snd A)))) gcells.
Proof.
  destruct OQ as [[Lx Kx] [Ly Ky]], O2 as [L2 K2], O3 as [L3 K3]. pose proof (gcells_x _ _ CQ) as Cx. pose proof (gcells_y _ _ CQ) as Cy. unfold twisted_frobenius. rewrite L2, L3. cbn [Nat.eqb].
  do 2 (eapply h_assert_bind; [auto|intros _]).
  eapply h_bind; [apply (l2_conjugate lb m Hp Hlb Hlb2 Hm ch n k HN HK L Pre Hon (gx Q) Cx Kx); [auto|fr2]|]. cbv beta. intros fx (_ & Lfx & Kfx). cbn [app].
  eapply h_bind; [eapply (l2_conjugate lb m Hp Hlb Hlb2 Hm ch n k HN HK _ _ Hon (gy Q)); [inc|auto|auto|fr2]|]. cbv beta. intros fy (_ & Lfy & Kfy). cbn [app].
  assert (V : forall e, Pre e -> forall h (A : pt2), gred h e Q A -> red2 h e c2 g2 /\ red2 h e c3 g3). { intros e HP h A [G1 _]. apply HV; auto. intros Hh. exact (red2_hon lb m Hlb Hlb2 n h e _ _ G1 Hh). }
  eapply h_bind; [eapply (l2_mul _ _ Hon c2 fx); auto; try inc|]; cbv beta. { intros Hh [[HP R1] R2]. destruct (HH Hh HP) as (A & G). destruct (V _ HP _ _ G). exists g2, (x2_conj (fst A)). split; auto. apply R1, G. } intros ox Kox. cbn [app].
  eapply h_bind; [eapply (l2_mul _ _ Hon c3 fy); auto; try inc|]; cbv beta. { intros Hh [[[HP R1] R2] _]. destruct (HH Hh HP) as (A & G). destruct (V _ HP _ _ G). exists g3, (x2_conj (snd A)). split; auto. apply R2, G. } intros oy Koy. cbn [app].
  apply h_ret; [split; auto|unfold gcells; cbn [gx gy]; apply incl_app; inc1|].
  intros e [[[[HP R1] R2] R3] R4] h A G. destruct (V _ HP _ _ G). destruct G as [G1 G2]. split; cbn [gx gy fst snd]; auto.
Qed.
Lemma G_neg_frob : hcalc L Pre Hon (neg_twisted_frobenius lb ch Q c2 c3) okg (fun e o => forall h (A : pt2), gred h e Q A -> gred h e o (x2_mul g2 (x2_conj (fst A)), x2_mul g3 (x2_opp (x2_conj (snd A))))) gcells.
Proof.
  destruct OQ as [[Lx Kx] [Ly Ky]], O2 as [L2 K2], O3 as [L3 K3]. pose proof (gcells_x _ _ CQ) as Cx. pose proof (gcells_y _ _ CQ) as Cy. unfold neg_twisted_frobenius. rewrite L2, L3. cbn [Nat.eqb].
  do 2 (eapply h_assert_bind; [auto|intros _]).
  eapply h_bind; [apply (l2_conjugate lb m Hp Hlb Hlb2 Hm ch n k HN HK L Pre Hon (gx Q) Cx Kx); [auto|fr2]|]. cbv beta. intros fx (_ & Lfx & Kfx). cbn [app].
  eapply h_bind; [eapply (l2_neg_conjugate lb m Hp Hlb Hlb2 Hm ch n k HN HK _ _ Hon (gy Q)); [inc|auto|auto|fr2]|]. cbv beta. intros fy (_ & Lfy & Kfy). cbn [app].
  assert (V : forall e, Pre e -> forall h (A : pt2), gred h e Q A -> red2 h e c2 g2 /\ red2 h e c3 g3). { intros e HP h A [G1 _]. apply HV; auto. intros Hh. exact (red2_hon lb m Hlb Hlb2 n h e _ _ G1 Hh). }
  eapply h_bind; [eapply (l2_mul _ _ Hon c2 fx); auto; try inc|]; cbv beta. { intros Hh [[HP R1] R2]. destruct (HH Hh HP) as (A & G). destruct (V _ HP _ _ G). exists g2, (x2_conj (fst A)). split; auto. apply R1, G. } intros ox Kox. cbn [app].
  eapply h_bind; [eapply (l2_mul _ _ Hon c3 fy); auto; try inc|]; cbv beta. { intros Hh [[[HP R1] R2] _]. destruct (HH Hh HP) as (A & G). destruct (V _ HP _ _ G). exists g3, (x2_opp (x2_conj (snd A))). split; auto. apply R2, G. } intros oy Koy. cbn [app].
  apply h_ret; [split; auto|unfold gcells; cbn [gx gy]; apply incl_app; inc1|].
  intros e [[[[HP R1] R2] R3] R4] h A G. destruct (V _ HP _ _ G). destruct G as [G1 G2]. split; cbn [gx gy fst snd]; auto.
Qed.
End Frob.

(** ** Sparse elements of Fp12 *)
Definition oval (h : Prop) (e : env) (c : option vec) (v : x2 m) : Prop := match c with None => v = x2_0 | Some a => red2 h e a v end.
Definition sred (h : Prop) (e : env) (s : list (option vec)) (x : w6) : Prop := Forall2 (oval h e) s (w6_list x).
Definition okc (c : option vec) : Prop := match c with None => True | Some a => length a = 2%nat /\ vism a end.
Definition oks6 (s : list (option vec)) : Prop := length s = 6%nat /\ Forall okc s /\ exists j a, nth_error s j = Some (Some a).
Definition ocells (c : option vec) : list AV := match c with None => [] | Some a => vcells a end.
Definition scells (s : list (option vec)) : list AV := flat_map ocells s.
Definition shape (c o : option vec) : Prop := match c, o with None, None => True | Some _, Some v => length v = 2%nat /\ vism v | _, _ => False end.
Definition cval (e : env) (c o : option vec) : Prop := match c, o with None, None => True | Some a, Some v => forall h z B, zv h e a z -> gle z B -> 8 * B < W -> red2 h e v (of2 z) | _, _ => False end.
Lemma O_carry L (Pre : env -> Prop) (Hon : Prop) (s : list (option vec)) :
  (forall a, In (Some a) s -> exists ba, vpre L a /\ visk a ba /\ (ba <= lg + n + n + 9 + lx + 1)%nat /\ length a = 2%nat /\ (Hon -> Pre hval -> exists z B, zv True hval a z /\ gle z B /\ 8 * B < W)) ->
  hcalc L Pre Hon (mapM (carry_opt lb ch) s) (fun o => Forall2 shape s o) (fun e o => Forall2 (cval e) s o) scells.
Proof.
  intros HS. apply (h_mapM lb L Pre Hon _ shape cval ocells). intros [a|] Hx; cbn [carry_opt].
  - destruct (HS a Hx) as (ba & Ca & Ka & Hb & La & HH). eapply h_bind; [apply (Q_carry L Pre Hon a ba Ca Ka); auto; eapply room_le; eauto|]. cbv beta. intros v Kv. apply h_ret; [exact Kv|cbn [ocells]; inc|].
    intros e [_ R]. exact R.
  - apply h_ret; [exact Logic.I|intros x []|intros; exact Logic.I].
Qed.
Lemma SC {T : Type} (I : Prop -> env -> T -> Prop) e (a v : vec) f B : SZ I e a f B -> 8 * B < W -> (forall h z B, zv h e a z -> gle z B -> 8 * B < W -> red2 h e v (of2 z)) -> forall h i, I h e i -> red2 h e v (f i).
Proof. intros H HW R h i Hi. destruct (H h i Hi) as (z & Z1 & <- & Z3). eauto. Qed.
Ltac bndW := pose proof M2p' as MP; pose proof (Z.abs_nonneg xi0) as XP; change (Z.abs 2) with 2; change (Z.abs 3) with 3; change (Z.abs (-3)) with 3; revert MP XP HB; generalize M2 (Z.abs xi0) W; clear; intros; nia.
Ltac szh I H0 := intros Hh HP; destruct (H0 Hh ltac:(tauto)) as (i & Hi); repeat (destruct HP as [HP ?]); match goal with H : SZ I hval ?a _ _ |- exists z B, zv True hval ?a z /\ _ => destruct (H True i Hi) as (z & Z1 & Z2 & Z3); exists z; eexists; split; [exact Z1|split; [exact Z3|bndW]] end.
Lemma L_unequal L (Pre : env -> Prop) (Hon : Prop) (Q0 Q1 : g2pt) (P : ecpt) : incl (gcells Q0) L -> incl (gcells Q1) L -> incl (pcells P) L -> okg Q0 -> okg Q1 -> okp P ->
  (Hon -> Pre hval -> exists (A B : pt2) T, gred True hval Q0 A /\ gred True hval Q1 B /\ pred1 True hval P T) ->
  hcalc L Pre Hon (sparse_line_function_unequal lb ch Q0 Q1 P) oks6 (fun e o => forall h (A B : pt2) T, gred h e Q0 A -> gred h e Q1 B -> pred1 h e P T -> sred h e o (chord_at xi0 (twist xi0 A) (twist xi0 B) (embed T))) scells.
Proof.
  intros C0 C1 CP [[Lx Kx] [Ly Ky]] [[Lx' Kx'] [Ly' Ky']] [KX KY] HH. pose proof (gcells_x _ _ C0) as Cx. pose proof (gcells_y _ _ C0) as Cy. pose proof (gcells_x _ _ C1) as Cx'. pose proof (gcells_y _ _ C1) as Cy'. pose proof (pcells_x _ _ CP) as CX. pose proof (pcells_y _ _ CP) as CY.
  set (I := fun (h : Prop) (e : env) (i : pt2 * pt2 * (Fm * Fm)) => gred h e Q0 (fst (fst i)) /\ gred h e Q1 (snd (fst i)) /\ pred1 h e P (snd i)).
  assert (BX : forall e, SR I e (gx Q0) (fun i => fst (fst (fst i)))) by (intros e h A [[H _] _]; exact H). assert (BY : forall e, SR I e (gy Q0) (fun i => snd (fst (fst i)))) by (intros e h A [[_ H] _]; exact H).
  assert (BX' : forall e, SR I e (gx Q1) (fun i => fst (snd (fst i)))) by (intros e h A [_ [[H _] _]]; exact H). assert (BY' : forall e, SR I e (gy Q1) (fun i => snd (snd (fst i)))) by (intros e h A [_ [[_ H] _]]; exact H).
  assert (FX : forall e, SF I e (px P) (fun i => fst (snd i))) by (intros e h A [_ [_ [H _]]]; exact H). assert (FY : forall e, SF I e (py P) (fun i => snd (snd i))) by (intros e h A [_ [_ [_ H]]]; exact H).
  assert (H0 : Hon -> Pre hval -> exists i, I True hval i). { intros Hh HP. destruct (HH Hh HP) as (A & B & T & G & G' & E). exists (A, B, T). split; auto. }
  pose proof (vism_visk _ _ _ Kx) as Vx. pose proof (vism_visk _ _ _ Ky) as Vy. pose proof (vism_visk _ _ _ Kx') as Vx'. pose proof (vism_visk _ _ _ Ky') as Vy'. unfold sparse_line_function_unequal.
  rewrite Lx, Ly, Lx', Ly'. cbn [Nat.eqb]. do 4 (eapply h_assert_bind; [auto|intros _]).
  sb (s_sub_r I). sb (s_sub_r I). sb (s_mul I). sb (s_mul I). sb (s_fpmul I). sb (s_fpmul I). sb (s_sub I).
  eapply h_post; [eapply O_carry| | |]; cbv beta.
  - intros a Ha. cbn [In] in Ha. destruct Ha as [Ha|[Ha|[Ha|[Ha|[Ha|[Ha|[]]]]]]]; try discriminate Ha; injection Ha as <-; (eexists; split; [inc|split; [eassumption|split; [lia|split; [assumption|]]]]).
    + szh I H0.
    + szh I H0.
    + szh I H0.
  - intros o Ho. pose proof (Forall2_len _ _ _ Ho) as Lo. split; [exact (eq_sym Lo)|].
    inversion Ho as [|? o0 ? ? S0 Ho1]; subst. inversion Ho1 as [|? o1 ? ? S1 Ho2]; subst. inversion Ho2 as [|? o2 ? ? S2 Ho3]; subst. inversion Ho3 as [|? o3 ? ? S3 Ho4]; subst. inversion Ho4 as [|? o4 ? ? S4 Ho5]; subst. inversion Ho5 as [|? o5 ? ? S5 Ho6]; subst. inversion Ho6; subst.
    unfold shape in *. split; [repeat apply Forall_cons; try apply Forall_nil; destruct o0, o1, o2, o3, o4, o5; cbn [okc]; tauto|]. destruct o2 as [v|]; [|destruct S2]. exists 2%nat, v. reflexivity.
  - intros e o _ HP R h A B T GA GB GT. assert (IA : I h e (A, B, T)) by (split; auto). destruct T as [X Y]. rewrite chord_sparse. unfold sred. cbn [w6_list].
    repeat (destruct HP as [HP ?]).
    inversion R as [|? o0 ? ? S0 Ho1]; subst. inversion Ho1 as [|? o1 ? ? S1 Ho2]; subst. inversion Ho2 as [|? o2 ? ? S2 Ho3]; subst. inversion Ho3 as [|? o3 ? ? S3 Ho4]; subst. inversion Ho4 as [|? o4 ? ? S4 Ho5]; subst. inversion Ho5 as [|? o5 ? ? S5 Ho6]; subst. inversion Ho6; subst.
    unfold cval in *. destruct o0, o1, o2, o3, o4, o5; try contradiction.
    apply Forall2_cons; [reflexivity|]. apply Forall2_cons; [reflexivity|]. apply Forall2_cons; [|apply Forall2_cons; [|apply Forall2_cons; [reflexivity|apply Forall2_cons; [|constructor]]]]; cbn [oval].
    + match goal with H : SZ I e _ _ _ |- red2 h e ?v _ => match goal with S : forall h z B, zv h e ?a z -> _ -> _ -> red2 h e v _, H' : SZ I e ?a _ _ |- _ => refine (SC I e a v _ _ H' _ S h _ IA); bndW end end.
    + match goal with H : SZ I e _ _ _ |- red2 h e ?v _ => match goal with S : forall h z B, zv h e ?a z -> _ -> _ -> red2 h e v _, H' : SZ I e ?a _ _ |- _ => refine (SC I e a v _ _ H' _ S h _ IA); bndW end end.
    + match goal with H : SZ I e _ _ _ |- red2 h e ?v _ => match goal with S : forall h z B, zv h e ?a z -> _ -> _ -> red2 h e v _, H' : SZ I e ?a _ _ |- _ => refine (SC I e a v _ _ H' _ S h _ IA); bndW end end.
  - intros o _. apply incl_appl, incl_refl.
Qed.
Lemma neg3_ok : (of_Z m (-3), F0) = x2_opp three. Proof. unfold x2_add, x2_1, x2_opp. cbn [fst snd]. change (-3) with (- (1 + 1 + 1)). rewrite of_Z_opp, !of_Z_add. change (of_Z m 1) with (F1 : Fm). apply f_equal2; ring. Qed.
Lemma L_equal L (Pre : env -> Prop) (Hon : Prop) (Q : g2pt) (P : ecpt) : incl (gcells Q) L -> incl (pcells P) L -> okg Q -> okp P ->
  (Hon -> Pre hval -> exists (A : pt2) T, gred True hval Q A /\ pred1 True hval P T) ->
  hcalc L Pre Hon (sparse_line_function_equal lb ch xi0 Q P) oks6 (fun e o => forall h (A : pt2) T, gred h e Q A -> pred1 h e P T -> sred h e o (tangent_at xi0 (twist xi0 A) (embed T))) scells.
Proof.
  intros C0 CP [[Lx Kx] [Ly Ky]] [KX KY] HH. pose proof (gcells_x _ _ C0) as Cx. pose proof (gcells_y _ _ C0) as Cy. pose proof (pcells_x _ _ CP) as CX. pose proof (pcells_y _ _ CP) as CY.
  set (I := fun (h : Prop) (e : env) (i : pt2 * (Fm * Fm)) => gred h e Q (fst i) /\ pred1 h e P (snd i)).
  assert (BX : forall e, SR I e (gx Q) (fun i => fst (fst i))) by (intros e h A [[H _] _]; exact H). assert (BY : forall e, SR I e (gy Q) (fun i => snd (fst i))) by (intros e h A [[_ H] _]; exact H).
  assert (FX : forall e, SF I e (px P) (fun i => fst (snd i))) by (intros e h A [_ [H _]]; exact H). assert (FY : forall e, SF I e (py P) (fun i => snd (snd i))) by (intros e h A [_ [_ H]]; exact H).
  assert (H0 : Hon -> Pre hval -> exists i, I True hval i). { intros Hh HP. destruct (HH Hh HP) as (A & T & G & E). exists (A, T). split; auto. }
  pose proof (vism_visk _ _ _ Kx) as Vx. pose proof (vism_visk _ _ _ Ky) as Vy. unfold sparse_line_function_equal.
  rewrite Lx, Ly. cbn [Nat.eqb]. do 2 (eapply h_assert_bind; [auto|intros _]).
  eapply h_bind; [apply (l2_mul L Pre Hon (gx Q) (gx Q)); auto|]; cbv beta. { intros Hh HP. destruct (HH Hh HP) as (A & T & [G _] & _). eauto. }
  intros xs [Lxs Kxs]. pose proof (vism_visk _ _ _ Kxs) as Vxs. cbn [app].
  eapply h_weaken with (Pre := fun e => Pre e /\ SR I e xs (fun i => (fst (fst i) * fst (fst i))%X)) (Hon := Hon); [|apply incl_refl| | | | |]; cbv beta; [|intros e [HP R]; split; [exact HP|intros h i Hi; apply R; apply Hi]|auto| | |].
  2: { intros b Hb; exact Hb. }
  2: { intros e b _ _ R; exact R. }
  2: { intros b _; apply incl_appl, incl_refl. }
  assert (LG2 : log2_ceil (Z.abs 2) = 1%nat) by reflexivity. assert (LG3 : log2_ceil (Z.abs 3) = 2%nat) by reflexivity. assert (LG3' : log2_ceil (Z.abs (-3)) = 2%nat) by reflexivity.
  sb (s_mul I). sb (s_smul I). sb (s_mul I). sb (s_smul I). sb (s_sub I). sb (s_w6 I). sb (s_fpmul I). sb (s_smul I). sb (s_fpmul I). sb (s_smul I). rewrite ?LG2, ?LG3, ?LG3' in *.
  eapply h_post; [eapply O_carry| | |]; cbv beta.
  - intros a Ha. cbn [In] in Ha. destruct Ha as [Ha|[Ha|[Ha|[Ha|[Ha|[Ha|[]]]]]]]; try discriminate Ha; injection Ha as <-; (eexists; split; [inc|split; [eassumption|split; [lia|split; [assumption|]]]]).
    + szh I H0.
    + szh I H0.
    + szh I H0.
  - intros o Ho. pose proof (Forall2_len _ _ _ Ho) as Lo. split; [exact (eq_sym Lo)|].
    inversion Ho as [|? o0 ? ? S0 Ho1]; subst. inversion Ho1 as [|? o1 ? ? S1 Ho2]; subst. inversion Ho2 as [|? o2 ? ? S2 Ho3]; subst. inversion Ho3 as [|? o3 ? ? S3 Ho4]; subst. inversion Ho4 as [|? o4 ? ? S4 Ho5]; subst. inversion Ho5 as [|? o5 ? ? S5 Ho6]; subst. inversion Ho6; subst.
    unfold shape in *. split; [repeat apply Forall_cons; try apply Forall_nil; destruct o0, o1, o2, o3, o4, o5; cbn [okc]; tauto|]. destruct o0 as [v|]; [|destruct S0]. exists 0%nat, v. reflexivity.
  - intros e o _ HP R h A T GA GT. assert (IA : I h e (A, T)) by (split; auto). destruct T as [X Y]. rewrite tangent_sparse. unfold sred. cbn [w6_list].
    repeat (destruct HP as [HP ?]).
    inversion R as [|? o0 ? ? S0 Ho1]; subst. inversion Ho1 as [|? o1 ? ? S1 Ho2]; subst. inversion Ho2 as [|? o2 ? ? S2 Ho3]; subst. inversion Ho3 as [|? o3 ? ? S3 Ho4]; subst. inversion Ho4 as [|? o4 ? ? S4 Ho5]; subst. inversion Ho5 as [|? o5 ? ? S5 Ho6]; subst. inversion Ho6; subst.
    unfold cval in *. destruct o0, o1, o2, o3, o4, o5; try contradiction.
    apply Forall2_cons; [|apply Forall2_cons; [reflexivity|apply Forall2_cons; [reflexivity|apply Forall2_cons; [|apply Forall2_cons; [|apply Forall2_cons; [reflexivity|constructor]]]]]]; cbn [oval].
    + eapply red2_eq; [match goal with H : SZ I e _ _ _ |- red2 h e ?v _ => match goal with S : forall h z B, zv h e ?a z -> _ -> _ -> red2 h e v _, H' : SZ I e ?a _ _ |- _ => refine (SC I e a v _ _ H' _ S h _ IA); bndW end end|]. cbn [fst snd]. rewrite two_ok, three_ok. ring.
    + eapply red2_eq; [match goal with H : SZ I e _ _ _ |- red2 h e ?v _ => match goal with S : forall h z B, zv h e ?a z -> _ -> _ -> red2 h e v _, H' : SZ I e ?a _ _ |- _ => refine (SC I e a v _ _ H' _ S h _ IA); bndW end end|]. cbn [fst snd]. rewrite two_ok. ring.
    + eapply red2_eq; [match goal with H : SZ I e _ _ _ |- red2 h e ?v _ => match goal with S : forall h z B, zv h e ?a z -> _ -> _ -> red2 h e v _, H' : SZ I e ?a _ _ |- _ => refine (SC I e a v _ _ H' _ S h _ IA); bndW end end|]. cbn [fst snd]. rewrite neg3_ok. ring.
  - intros o _. apply incl_appl, incl_refl.
Qed.
End Pair.
