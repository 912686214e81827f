(** cyclotomic_square and cyclotomic_decompress (FinalExp.v) in terms of elements of Fp2. [h : Prop] as in FpField.v. *)
From Coq Require Import ZArith Znumtheory Lia List Bool Ring.
From Verif Require Import Field Spec Context ContextProofs Utils Logic Gate GateProofs ChainProofs IPProofs BitProofs PowProofs IPComp Derived
  Range RangeProofs RangeProofs2 RangeProofs3 RegionGets Calc CalcH RegionPrev RegionLast BigPrims BigNum BigInt BigSpec BigOps BigSel BigCmp BigSub BigCarry BigMod BigCrtNum BigCrt FpChip FpProofs FpProofs2 FpProofs3 FpField FpField2 FpField3 FieldExt ExtSpec ExtProofs ExtProofs2 ExtProofs3 ExtProofs4 ExtProofs5 FinalExp GaussOps.
Import ListNotations.
Local Open Scope Z_scope.

Lemma sm_mul M a b : 0 <= a < M -> 0 <= b < M -> 0 <= a * b <= M * M. Proof. intros. split; [lia|]. apply Z.mul_le_mono_nonneg; lia. Qed.
Lemma bnd M x u v t : Z.abs u <= 12 * (M * M) -> Z.abs v <= 12 * (M * M) + 2 * M -> t = x * u + v -> Z.abs t <= (12 * Z.abs x + 12) * (M * M) + 2 * M.
Proof. intros Hu Hv ->. assert (Z.abs (x * u) <= Z.abs x * (12 * (M * M))) by (rewrite Z.abs_mul; apply Z.mul_le_mono_nonneg_l; lia). lia. Qed.

Ltac gl := match goal with M : Z |- context [?K * (?M * ?M)] => let MM := fresh "MM" in
    assert (forall a b, 0 <= a < M -> 0 <= b < M -> 0 <= a * b <= M * M) by (intros; apply sm_mul; assumption); assert (0 <= M * M) by nia; set (MM := M * M) in *; clearbody MM;
    repeat match goal with SM : forall a b, _, Ha : 0 <= ?a < M, Hb : 0 <= ?b < M |- context [?a * ?b] => generalize (SM a b Ha Hb); generalize (a * b); intros end;
    repeat match goal with SM : forall a b, _, Ha : 0 <= ?a < M |- context [?a * ?a] => generalize (SM a a Ha Ha); generalize (a * a); intros end end; lia.
Lemma F2_in_r {A B} (R : A -> B -> Prop) l l' y : Forall2 R l l' -> In y l' -> exists x, In x l /\ R x y.
Proof. induction 1 as [|a b l l' Hab H IH]; intros Hy; [destruct Hy|]. destruct Hy as [<-|Hy]; [exists a; cbn; auto|]. destruct (IH Hy) as (x & ? & ?). exists x. cbn. auto. Qed.
Section Final.
Context {p : positive}.
Notation Fp := (F p).
Notation AV := (AV p).
Notation crt := (crt p).
Notation vec := (list crt).
Variables (lb : nat) (m : positive).
Notation env := (env (p:=p)).
Notation hcalc := (hcalc lb).
Hypothesis Hp : prime (Z.pos p).
Hypothesis Hlb : (1 <= lb < 64)%nat.
Hypothesis Hlb2 : (2 * lb <= CAPACITY p)%nat.
Hypothesis Hm : 1 < Z.pos m.
Add Ring Fring : (F_ring p) (morphism (F_morph p), constants [Fcst]).
Add Ring Fringm : (F_ring m) (morphism (F_morph m), constants [Fcst]).
Add Ring X2ringd : (x2_ring (m:=m)).
Variables (ch : fpchip p) (n k : nat).
Hypothesis HN : fpchip_new m n k = Some ch.
Hypothesis HK : fp_params (p:=p) lb m n k.
Notation mz := (Z.pos m).
Notation Fm := (F m).
Notation M2 := (2 ^ Z.of_nat (bits mz)).
Notation W := (2 ^ Z.of_nat (n * k + NUM_BITS p)).
Notation frep := (frep (p:=p) m n).
Notation fred := (fred (p:=p) m n).
Notation isk := (isk k).
Notation lg := (log2_ceil (Z.of_nat k)).
Notation islk := (islk k).
Notation room := (room (p:=p) lb n k).
Notation visk := (visk k).
Notation vism := (vism n k).
Notation vrep := (vrep m n).
Notation vred := (vred m n).
Notation red2 := (red2 (p:=p) m n).
Notation of2 := (of2 m).
Notation zv := (zv n).
Variable (xi0 : Z).
Notation lx := (Nat.max (log2_ceil (Z.abs xi0)) (log2_ceil (Z.abs (xi0 + 1)))).
Hypothesis Hxi : - 2 ^ 63 < xi0 < 2 ^ 63 - 1.
Hypothesis Hroom : room (lg + n + n + 9 + lx + 1).
Hypothesis HB : 8 * ((12 * Z.abs xi0 + 12) * (M2 * M2) + 2 * M2) < W.
Notation xi := (xi (m:=m) xi0).

Notation Q_add := (q_add lb m Hlb Hlb2 n k).
Notation Q_sub := (q_sub lb m Hlb Hlb2 n k).
Notation Q_smul := (q_smul lb m Hlb Hlb2 n k).
Notation Q_smul_add := (q_smul_add lb m Hlb Hlb2 n k).
Notation Q_mul := (q_mul lb m Hp Hlb Hlb2 Hm ch n k HN HK).
Notation Q_w6 := (q_w6 lb m Hlb Hlb2 n k).
Notation Q_select := (q_select lb m Hp Hlb Hlb2 n k).
Notation Q_carry := (q_carry lb m Hp Hlb Hlb2 Hm ch n k HN HK).
Notation Q_divide := (q_divide lb m Hp Hlb Hlb2 Hm ch n k HN HK).
Notation Q_plus_one := (q_plus_one lb m Hlb Hlb2 ch n k HN HK).

Ltac inc1 := first [ assumption | apply incl_refl | (apply incl_appl; inc1) | (apply incl_appr; inc1) ].
Ltac inc := cbn [app]; first [ assumption | (unfold cpre, vpre; inc1) | (eapply cpre_incl; [eassumption|inc1]) | (eapply vpre_incl; [eassumption|inc1]) ].
Tactic Notation "qb" uconstr(lem) := eapply h_bind; [eapply lem; try inc; try eassumption; try lia|]; cbv beta; [..|let c := fresh "c" in let L := fresh "Lc" in let K := fresh "K" in intros c [L K]; cbn [app]].
Ltac zf1 :=
  match goal with
  | H : _ /\ _ |- _ => lazymatch type of H with (_ <= _ < _)%nat => fail | (_ <= _ < _)%Z => fail | _ => destruct H end
  | H : forall h x y, zv h ?e ?a x -> zv h ?e ?b y -> zv h ?e ?c _, A : zv ?h ?e ?a ?x, B : zv ?h ?e ?b ?y |- _ => specialize (H h x y A B); cbv beta in H
  | H : forall h x, zv h ?e ?a x -> zv h ?e ?c _, A : zv ?h ?e ?a ?x |- _ => specialize (H h x A); cbv beta in H
  end.
(** lists of Fp2 elements *)
Definition viss (o : list vec) : Prop := Forall (fun v => length v = 2%nat /\ vism v) o.
Definition reds (h : Prop) (e : env) (o : list vec) (x : list (x2 m)) : Prop := Forall2 (red2 h e) o x.
Declare Scope x2_scope.
Notation "a + b" := (x2_add a b) : x2_scope.
Notation "a - b" := (x2_sub a b) : x2_scope.
Notation "a * b" := (x2_mul a b) : x2_scope.
Delimit Scope x2_scope with X.
Notation two := (x2_add (x2_1 (m:=m)) x2_1).
Notation three := (x2_add (x2_add (x2_1 (m:=m)) x2_1) x2_1).
(** Theorem 3.2 of Karabina's paper, as in the comments of final_exp.rs:215-225 *)
Definition sq_spec (x2 x3 x4 x5 : x2 m) : list (ExtSpec.x2 m) :=
  [(two * (x2 + three * (xi * (x4 * x5))))%X; (three * (x4 * x4 + xi * (x5 * x5)) - two * x3)%X; (three * (x2 * x2 + xi * (x3 * x3)) - two * x4)%X; (two * (x5 + three * (x2 * x3)))%X].
Lemma two_ok : (of_Z m 2, F0) = two. Proof. unfold x2_add, x2_1. cbn [fst snd]. change 2 with (1 + 1). rewrite of_Z_add. change (of_Z m 1) with (F1 : Fm). apply f_equal2; ring. Qed.
Lemma three_ok : (of_Z m 3, F0) = three. Proof. unfold x2_add, x2_1. cbn [fst snd]. change 3 with (1 + 1 + 1). rewrite !of_Z_add. change (of_Z m 1) with (F1 : Fm). apply f_equal2; ring. Qed.
Lemma four_ok : (of_Z m 4, F0) = (two * two)%X. Proof. unfold x2_add, x2_1, x2_mul. cbn [fst snd]. change 4 with (1 + 1 + 1 + 1). rewrite !of_Z_add. change (of_Z m 1) with (F1 : Fm). apply f_equal2; ring. Qed.
Lemma neg2_ok : (of_Z m (-2), F0) = x2_opp two. Proof. unfold x2_add, x2_1, x2_opp. cbn [fst snd]. change (-2) with (- (1 + 1)). rewrite of_Z_opp, of_Z_add. change (of_Z m 1) with (F1 : Fm). apply f_equal2; ring. Qed.
Lemma xi1_ok : ExtSpec.xi (m:=m) (xi0 + 1) = (xi + x2_1)%X. Proof. unfold ExtSpec.xi, x2_add, x2_1. cbn [fst snd]. rewrite of_Z_add. f_equal; try ring. Qed.
Lemma M2p : 0 < M2. Proof. apply Z.pow_pos_nonneg; lia. Qed.

Lemma l_square (L : list AV) (Pre : env -> Prop) (Hon : Prop) (g2 g3 g4 g5 : vec) : viss [g2; g3; g4; g5] -> incl (flat_map vcells [g2; g3; g4; g5]) L ->
  (Hon -> Pre hval -> exists x, reds True hval [g2; g3; g4; g5] x) ->
  hcalc L Pre Hon (cyclotomic_square lb ch xi0 [g2; g3; g4; g5]) (fun o => length o = 4%nat /\ viss o)
    (fun e o => forall h x2 x3 x4 x5, reds h e [g2; g3; g4; g5] [x2; x3; x4; x5] -> reds h e o (sq_spec x2 x3 x4 x5)) (flat_map vcells).
Proof.
  intros V C HH. pose proof M2p as M2p. unfold viss in V.
  inversion V as [|? ? [L2 V2] V']; subst. inversion V' as [|? ? [L3 V3] V'']; subst. inversion V'' as [|? ? [L4 V4] V''']; subst. inversion V''' as [|? ? [L5 V5] _]; subst. clear V V' V'' V'''.
  assert (C2 : vpre L g2) by (intros x Hx; apply C; apply in_flat_map; exists g2; cbn; auto). assert (C3 : vpre L g3) by (intros x Hx; apply C; apply in_flat_map; exists g3; cbn; auto).
  assert (C4 : vpre L g4) by (intros x Hx; apply C; apply in_flat_map; exists g4; cbn; auto). assert (C5 : vpre L g5) by (intros x Hx; apply C; apply in_flat_map; exists g5; cbn; auto 6).
  apply vism_visk in V2, V3, V4, V5. clear C. unfold cyclotomic_square.
  qb (Q_add). qb (Q_w6). qb (Q_add). qb (Q_mul). qb (Q_add). qb (Q_w6). qb (Q_add). qb (Q_mul). qb (Q_mul). qb (Q_mul). qb (Q_w6).
  qb (Q_smul_add). qb (Q_smul). qb (Q_add). qb (Q_sub). qb (Q_smul). qb (Q_smul_add).
  qb (Q_w6). qb (Q_sub). qb (Q_smul). qb (Q_smul_add). qb (Q_smul_add). qb (Q_smul).

  pose (bb := (lg + n + n + 8 + lx)%nat).
  assert (LG2 : log2_ceil (Z.abs 2) = 1%nat) by reflexivity. assert (LG3 : log2_ceil (Z.abs 3) = 2%nat) by reflexivity. assert (LGm2 : log2_ceil (Z.abs (-2)) = 1%nat) by reflexivity. rewrite LG2, LG3, LGm2 in *.
  assert (KK : forall v b, visk v b -> (b <= bb)%nat -> visk v bb) by (intros v b Hv Hb; eapply (visk_le lb m Hlb Hlb2); eauto).
  assert (K2' : visk c11 bb) by (eapply KK; [eassumption|unfold bb; lia]). assert (K3' : visk c15 bb) by (eapply KK; [eassumption|unfold bb; lia]).
  assert (K4' : visk c19 bb) by (eapply KK; [eassumption|unfold bb; lia]). assert (K5' : visk c21 bb) by (eapply KK; [eassumption|unfold bb; lia]).

  set (B := (12 * Z.abs xi0 + 12) * (M2 * M2) + 2 * M2) in *.
  match goal with |- CalcH.hcalc _ _ ?P _ _ _ _ _ => set (P1 := P) end.
  assert (FWD : forall e, P1 e -> forall h x2 x3 x4 x5, reds h e [g2; g3; g4; g5] [x2; x3; x4; x5] ->
     exists y, Forall2 (fun v z => zv h e v z /\ gle z B) [c11; c15; c19; c21] y /\ map of2 y = sq_spec x2 x3 x4 x5).
  { intros e HP h x2 x3 x4 x5 HR. unfold P1 in HP. clear P1. unfold reds in HR. inversion HR as [|? ? ? ? R2 HR2]; subst. inversion HR2 as [|? ? ? ? R3 HR3]; subst. inversion HR3 as [|? ? ? ? R4 HR4]; subst. inversion HR4 as [|? ? ? ? R5 _]; subst. clear HR HR2 HR3 HR4.
    apply (red2_zv lb m Hlb Hlb2) in R2 as (z2 & Z2 & [B20 B21] & E2), R3 as (z3 & Z3 & [B30 B31] & E3), R4 as (z4 & Z4 & [B40 B41] & E4), R5 as (z5 & Z5 & [B50 B51] & E5). 
    assert (BX : forall a, Z.abs a <= B -> True) by auto. clear HH.
    clear - HP Z2 Z3 Z4 Z5 B20 B21 B30 B31 B40 B41 B50 B51 E2 E3 E4 E5 M2p.
    repeat zf1.
    eexists [_; _; _; _]. split.
    - apply Forall2_cons; [split; [eassumption|]|apply Forall2_cons; [split; [eassumption|]|apply Forall2_cons; [split; [eassumption|]|apply Forall2_cons; [split; [eassumption|]|constructor]]]].
      all: unfold gle, gmul, gadd, gsub, gscale; cbn [fst snd]; unfold B; destruct z2 as [p2 q2], z3 as [p3 q3], z4 as [p4 q4], z5 as [p5 q5]; cbn [fst snd] in *; clear - B20 B21 B30 B31 B40 B41 B50 B51 M2p; set (M := M2) in *; clearbody M.
      all: split.
      + apply (bnd M xi0 (6 * (p4 * p5 - q4 * q5)) (- 6 * (p4 * q5 + q4 * p5) + 2 * p2)); [gl|gl|ring].
      + apply (bnd M xi0 (6 * (p4 * q5 + q4 * p5)) (6 * (p4 * p5 - q4 * q5) + 2 * q2)); [gl|gl|ring].
      + apply (bnd M xi0 (3 * (p5 * p5 - q5 * q5)) (3 * (p4 * p4 - q4 * q4) - 6 * (p5 * q5) - 2 * p3)); [gl|gl|ring].
      + apply (bnd M xi0 (6 * (p5 * q5)) (6 * (p4 * q4) + 3 * (p5 * p5 - q5 * q5) - 2 * q3)); [gl|gl|ring].
      + apply (bnd M xi0 (3 * (p3 * p3 - q3 * q3)) (3 * (p2 * p2 - q2 * q2) - 6 * (p3 * q3) - 2 * p4)); [gl|gl|ring].
      + apply (bnd M xi0 (6 * (p3 * q3)) (6 * (p2 * q2) + 3 * (p3 * p3 - q3 * q3) - 2 * q4)); [gl|gl|ring].
      + apply (bnd M xi0 0 (6 * (p2 * p3 - q2 * q3) + 2 * p5)); [gl|gl|ring].
      + apply (bnd M xi0 0 (6 * (p2 * q3 + q2 * p3) + 2 * q5)); [gl|gl|ring].
    - cbn [map]. unfold sq_spec. repeat rewrite ?of2_add, ?of2_sub, ?of2_mul, ?of2_scale, ?of2_xi. rewrite ?E2, ?E3, ?E4, ?E5, two_ok, three_ok, neg2_ok.
      rewrite xi1_ok.
      repeat match goal with |- _ :: _ = _ :: _ => apply f_equal2 end; try reflexivity; ring. }
  assert (P1h : Hon -> P1 hval -> exists x, reds True hval [g2; g3; g4; g5] x). { intros Hh HP. apply HH; auto. unfold P1 in HP. tauto. }
  clearbody P1.
  eapply h_post; [apply (h_mapM lb _ P1 Hon _ (fun _ o => length o = 2%nat /\ vism o) (fun e v o => forall h z B, zv h e v z -> gle z B -> 8 * B < W -> red2 h e o (of2 z)) vcells)| | |]; cbv beta.
  - intros v Hv. assert (Hv' : vpre (vcells c21 ++ vcells c20 ++ vcells c19 ++ vcells c18 ++ vcells c17 ++ vcells c16 ++ vcells c15 ++ vcells c14 ++ vcells c13 ++ vcells c12 ++ vcells c11 ++ vcells c10 ++ vcells c9 ++ vcells c8 ++ vcells c7 ++ vcells c6 ++ vcells c5 ++ vcells c4 ++ vcells c3 ++ vcells c2 ++ vcells c1 ++ vcells c0 ++ vcells c ++ L) v /\ visk v bb /\ length v = 2%nat).
    { destruct Hv as [<-|[<-|[<-|[<-|[]]]]]; (split; [inc|split; auto]). }
    destruct Hv' as (Cv & Kv & Lv). apply (Q_carry _ _ _ v bb); auto. { eapply room_le; eauto. unfold bb. lia. }
    intros Hh HP. destruct (P1h Hh HP) as (x & Hx). pose proof (Forall2_len _ _ _ Hx) as Lx. destruct x as [|x2 [|x3 [|x4 [|x5 [|]]]]]; try discriminate.
    destruct (FWD hval HP True x2 x3 x4 x5 Hx) as (y & Hy & _). destruct (F2_in_l _ _ _ v Hy Hv) as (z & _ & Hz1 & Hz2). exists z, B. auto.
  - intros o Ho. split; [apply Forall2_len in Ho; auto|]. clear - Ho. unfold viss. induction Ho; constructor; auto.
  - intros e o _ HP R h x2 x3 x4 x5 HR. destruct (FWD e HP h x2 x3 x4 x5 HR) as (y & Hy & <-). clear - R Hy HB. unfold reds. revert o R. induction Hy as [|v z vs y [H1 H2] Hy IH]; intros o R; inversion R; subst; cbn [map]; constructor; eauto.
  - intros o _. apply incl_appl, incl_refl.
Qed.

(** ** the coordinates of a list of Fp2 elements (final_exp.rs:59-65) *)
Lemma l_coeffs (L : list AV) (Pre : env -> Prop) (Hon : Prop) (l : list vec) : viss l -> incl (flat_map vcells l) L ->
  hcalc L Pre Hon (fp2s_coeffs l) (fun o => length o = (2 * length l)%nat /\ vism o) (fun e o => forall h x, reds h e l x -> vred h e o (map fst x ++ map snd x)) vcells.
Proof.
  intros V C. unfold viss in V. rewrite Forall_forall in V. unfold fp2s_coeffs.
  assert (G : forall i, (i < 2)%nat -> forall L', incl L L' -> forall P, hcalc L' P Hon (mapM (fun x : vec => lift (nth_error x i)) l) (fun o => Forall2 (fun v c => nth_error v i = Some c) l o) (fun _ _ => True) (flat_map ccells)).
  { intros i Hi L' HL P. eapply h_post; [apply (h_mapM lb L' P Hon _ (fun v c => nth_error v i = Some c) (fun _ _ _ => True) ccells)| | |]; cbv beta; auto.
    - intros v Hv. destruct (V v Hv) as [Lv Kv]. eapply h_post; [apply h_lift| | |]; cbv beta.
      + intros _ _ _. apply len2 in Lv as (a0 & a1 & ->). destruct i as [|[|]]; [| |lia]; cbn; eauto.
      + auto.
      + auto.
      + intros c Hc. apply incl_appr. intros x Hx. apply HL, C, in_flat_map. exists v. split; auto. apply in_flat_map. exists c. split; auto. eapply nth_error_In; eauto.
    - intros c _. apply incl_appl, incl_refl. }
  eapply h_bind; [apply (G 0%nat); [lia|apply incl_refl]|]. cbv beta. intros x0 H0.
  eapply h_bind; [apply (G 1%nat); [lia|apply incl_appr, incl_refl]|]. cbv beta. intros x1 H1.
  assert (KI : forall i o, Forall2 (fun (v : vec) c => nth_error v i = Some c) l o -> vism o).
  { intros i o Ho. clear - V Ho. unfold ExtProofs.vism. apply Forall_forall. intros c Hc. destruct (F2_in_r _ _ _ c Ho Hc) as (v & Hv & E). destruct (V v Hv) as [_ Kv]. unfold ExtProofs.vism in Kv. rewrite Forall_forall in Kv. apply Kv. eapply nth_error_In; eauto. }
  apply h_ret.
  - split; [rewrite app_length; apply Forall2_len in H0, H1; lia|]. apply Forall_app. split; [exact (KI _ _ H0)|exact (KI _ _ H1)].
  - unfold vcells. rewrite flat_map_app. apply incl_app; [apply incl_appr, incl_appl, incl_refl|apply incl_appl, incl_refl].
  - intros e _ h x Hx. apply Forall2_app.
    + clear - Hx H0. unfold reds in Hx. revert x0 H0. induction Hx as [|v y l x Hv Hx IH]; intros x0 H0; inversion H0; subst; cbn [map]; constructor; auto.
      unfold ExtProofs3.red2, ExtProofs.vred in Hv. inversion Hv; subst. cbn in H2. injection H2 as <-. auto.
    + clear - Hx H1. unfold reds in Hx. revert x1 H1. induction Hx as [|v y l x Hv Hx IH]; intros x1 H1; inversion H1; subst; cbn [map]; constructor; auto.
      unfold ExtProofs3.red2, ExtProofs.vred in Hv. inversion Hv as [|? ? ? ? ? Hv']; subst. inversion Hv'; subst. cbn in H2. injection H2 as <-. auto.
Qed.
End Final.
