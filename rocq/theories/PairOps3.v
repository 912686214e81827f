(** The Miller loop (Pairing.v) on the values its arguments stand for. *)
From Coq Require Import ZArith NArith Znumtheory Lia List Bool Ring.
From Verif Require Import Field Spec Context ContextProofs Utils Logic Gate GateProofs ChainProofs IPProofs BitProofs PowProofs IPComp Derived
  Range RangeProofs RangeProofs2 RangeProofs3 RegionGets Calc CalcH RegionPrev RegionLast BigPrims BigNum BigInt BigSpec BigOps BigSel BigCmp BigSub BigCarry BigMod BigCrtNum BigCrt FpChip FpProofs FpProofs2 FpProofs3 FpField FpField2 FpField3 FieldExt ExtSpec ExtSpec2 ExtProofs ExtProofs2 ExtProofs3 ExtProofs4 ExtProofs5 FinalExp GaussOps RingPow CycSpec FrobSpec Cyclo FinalProofs FinalProofs2 FinalProofs3 FinalHigh Ecc MillerSpec Pairing PairOps PairOps2.
Import ListNotations.
Local Open Scope Z_scope.

Section Pair.
Context {p : positive}.
Notation Fp := (F p).
Notation AV := (AV p).
Notation crt := (crt p).
Notation vec := (list crt).
Variables (lb : nat) (m : positive).
Notation env := (env (p:=p)).
Notation hcalc := (hcalc lb).
Hypothesis Hp : prime (Z.pos p).
Hypothesis Hlb : (1 <= lb < 64)%nat.
Hypothesis Hlb2 : (2 * lb <= CAPACITY p)%nat.
Hypothesis Hm : 1 < Z.pos m.
Add Ring Fring : (F_ring p) (morphism (F_morph p), constants [Fcst]).
Add Ring Fringm : (F_ring m) (morphism (F_morph m), constants [Fcst]).
Add Ring X2ringd : (x2_ring (m:=m)).
Variables (ch : fpchip p) (n k : nat).
Hypothesis HN : fpchip_new m n k = Some ch.
Hypothesis HK : fp_params (p:=p) lb m n k.
Notation mz := (Z.pos m).
Notation Fm := (F m).
Notation M2 := (2 ^ Z.of_nat (bits mz)).
Notation W := (2 ^ Z.of_nat (n * k + NUM_BITS p)).
Notation frep := (frep (p:=p) m n).
Notation fred := (fred (p:=p) m n).
Notation isk := (isk k).
Notation lg := (log2_ceil (Z.of_nat k)).
Notation islk := (islk k).
Notation room := (room (p:=p) lb n k).
Notation visk := (visk k).
Notation vism := (vism n k).
Notation vrep := (vrep m n).
Notation vred := (vred m n).
Notation red2 := (red2 (p:=p) m n).
Notation of2 := (of2 m).
Notation zv := (zv n).
Variable (xi0 : Z).
Hypothesis Hxi1 : 1 <= Z.abs xi0.
Notation lx := (Nat.max (log2_ceil (Z.abs xi0)) (log2_ceil (Z.abs (xi0 + 1)))).
Hypothesis Hxi : - 2 ^ 63 < xi0 < 2 ^ 63 - 1.
Hypothesis Hroom : room (lg + n + n + 9 + lx + 1).
Hypothesis HB : 8 * ((12 * Z.abs xi0 + 12) * (M2 * M2) + 2 * M2) < W.
Notation xi := (xi (m:=m) xi0).

Notation Q_add := (q_add lb m Hlb Hlb2 n k).
Notation Q_sub := (q_sub lb m Hlb Hlb2 n k).
Notation Q_smul := (q_smul lb m Hlb Hlb2 n k).
Notation Q_smul_add := (q_smul_add lb m Hlb Hlb2 n k).
Notation Q_mul := (q_mul lb m Hp Hlb Hlb2 Hm ch n k HN HK).
Notation Q_w6 := (q_w6 lb m Hlb Hlb2 n k).
Notation Q_select := (q_select lb m Hp Hlb Hlb2 n k).
Notation Q_carry := (q_carry lb m Hp Hlb Hlb2 Hm ch n k HN HK).
Notation Q_divide := (q_divide lb m Hp Hlb Hlb2 Hm ch n k HN HK).
Notation Q_plus_one := (q_plus_one lb m Hlb Hlb2 ch n k HN HK).

Ltac inc1 := first [ assumption | apply incl_refl | (apply incl_appl; inc1) | (apply incl_appr; inc1) ].
Ltac inc := cbn [app]; first [ assumption | (unfold cpre, vpre; inc1) | (eapply cpre_incl; [eassumption|inc1]) | (eapply vpre_incl; [eassumption|inc1]) ].
Tactic Notation "qb" uconstr(lem) := eapply h_bind; [eapply lem; try inc; try eassumption; try lia|]; cbv beta; [..|let c := fresh "c" in let L := fresh "Lc" in let K := fresh "K" in intros c [L K]; cbn [app]].
Ltac zf1 :=
  match goal with
  | H : _ /\ _ |- _ => lazymatch type of H with (_ <= _ < _)%nat => fail | (_ <= _ < _)%Z => fail | _ => destruct H end
  | H : forall h x y, zv h ?e ?a x -> zv h ?e ?b y -> zv h ?e ?c _, A : zv ?h ?e ?a ?x, B : zv ?h ?e ?b ?y |- _ => specialize (H h x y A B); cbv beta in H
  | H : forall h x y, zv h ?e ?a x -> zv h ?e ?a y -> zv h ?e ?c _, A : zv ?h ?e ?a ?x |- _ => specialize (H h x x A A); cbv beta in H
  | H : forall h x, zv h ?e ?a x -> zv h ?e ?c _, A : zv ?h ?e ?a ?x |- _ => specialize (H h x A); cbv beta in H
  end.
Declare Scope x2_scope.
Notation "a + b" := (x2_add a b) : x2_scope.
Notation "a - b" := (x2_sub a b) : x2_scope.
Notation "a * b" := (x2_mul a b) : x2_scope.
Delimit Scope x2_scope with X.
Notation two := (x2_add (x2_1 (m:=m)) x2_1).
Notation three := (x2_add (x2_add (x2_1 (m:=m)) x2_1) x2_1).

Notation reds := (reds (p:=p) m n).
Notation viss := (viss (p:=p) n k).
Notation prs x := [fst (x : x2 m); snd (x : x2 m)].


Variables (hint2 hint12 : list Fm -> list Fm -> list Fm) (ftab : list (x2 m)).
Hypothesis Hmp : prime (Z.pos m).
Hypothesis H3 : Z.pos m mod 4 = 3.
Hypothesis H6 : Z.pos m mod 6 = 1.
Hypothesis Htab : forall j, (j < 12)%nat -> nth_error ftab j = Some (gam (m:=m) xi0 j).
Hypothesis Hz6 : primitive6 (m:=m) xi0.
Notation q := (N.pos m).
Notation w6 := (w6 (m:=m)).
Notation wmul := (w6_mul (m:=m) xi0).
Notation pw := (npow (w6_1 (m:=m)) wmul).
Notation WR := (w6_ring (m:=m) xi0).
Notation cyc := (cyc (m:=m) xi0).
Add Ring W6ringh : WR.
Notation wred := (wred m n).
Notation ok12 := (ok12 n k).
Notation unit12 := (unit12 m xi0).
Hypothesis Hh2 : forall x y : x2 m, hint2 (prs x) (prs y) = prs (x2_mul x (x2_inv y)).
Notation SZ := (SZ m n).
Notation SR := (SR m n).
Notation SF := (SF m n).
Notation S_SZ := (SR_SZ lb m Hlb Hlb2 n).
Notation S_add := (s_add lb m Hlb Hlb2 n k xi0 HB).
Notation S_mul := (s_mul lb m Hp Hlb Hlb2 Hm ch n k HN HK).
Notation S_w6 := (s_w6 lb m Hlb Hlb2 n k xi0 Hxi1 Hxi HB).
Notation S_carry := (s_carry lb m Hp Hlb Hlb2 Hm ch n k HN HK xi0 Hroom HB).
Notation g2pt := (g2pt p).
Notation ecpt := (ecpt p).
Notation pt2 := (pt2 (m:=m)).
Notation gred := (gred m n).
Notation okg := (okg n k).
Notation pred1 := (pred1 m n).
Notation okp := (okp n k).
Notation sred := (sred m n).
Notation oval := (oval m n).
Notation oks6 := (oks6 n k).
Notation okc := (okc n k).
Notation w6_nth := (w6_nth m).
Notation chord A B T := (chord_at xi0 (twist xi0 A) (twist xi0 B) (embed T)).
Notation tang A T := (tangent_at xi0 (twist xi0 A) (embed T)).
Notation W_sp := (W_sparse lb m Hp Hlb Hlb2 Hm ch n k HN HK xi0 Hxi1 Hxi Hroom HB).
Notation G_dbl := (G_double lb m Hp Hlb Hlb2 Hm ch n k HN HK xi0 Hxi Hroom HB hint2 Hmp H3 H6 Hh2).
Notation G_ad := (G_add lb m Hp Hlb Hlb2 Hm ch n k HN HK xi0 Hxi Hroom HB hint2 Hmp H3 Hh2).
Notation L_une := (L_unequal lb m Hp Hlb Hlb2 Hm ch n k HN HK xi0 Hxi Hroom HB).
Notation L_eq := (L_equal lb m Hp Hlb Hlb2 Hm ch n k HN HK xi0 Hxi1 Hxi Hroom HB).
Lemma l_const L (Pre : env -> Prop) (Hon : Prop) (a : Fm) : hcalc L Pre Hon (fp_load_constant m ch a) (fun c => isk c n) (fun e c => forall h : Prop, (h -> e = hval) -> fred h e c a) ccells.
Proof.
  eapply h_post; [apply (f_load_constant lb m Hp Hlb Hlb2 Hm ch n k HN HK)| | |]; cbv beta; auto.
  - intros e c _ _ R h Hh. apply (fcan_fred lb m Hlb Hlb2 Hm), R, Hh.
  - intros o _. apply incl_appl, incl_refl.
Qed.

Lemma W_line_unequal L (Pre : env -> Prop) (Hon : Prop) (f : vec) (Q0 Q1 : g2pt) (P : ecpt) : vpre L f -> incl (gcells Q0) L -> incl (gcells Q1) L -> incl (pcells P) L -> ok12 f -> okg Q0 -> okg Q1 -> okp P ->
  (Hon -> Pre hval -> exists x (A B : pt2) T, wred True hval f x /\ gred True hval Q0 A /\ gred True hval Q1 B /\ pred1 True hval P T) ->
  hcalc L Pre Hon (fp12_multiply_with_line_unequal lb ch xi0 f Q0 Q1 P) ok12 (fun e o => forall h x (A B : pt2) T, wred h e f x -> gred h e Q0 A -> gred h e Q1 B -> pred1 h e P T -> wred h e o (wmul x (chord A B T))) vcells.
Proof.
  intros Cf C0 C1 CP Kf K0 K1 KP HH. unfold fp12_multiply_with_line_unequal.
  eapply h_bind; [apply (L_une L Pre Hon Q0 Q1 P C0 C1 CP K0 K1 KP)|]; cbv beta. { intros Hh HP. destruct (HH Hh HP) as (x & A & B & T & _ & ?). eauto. }
  intros l Kl. eapply h_post; [apply (W_sp f l Kf Kl _ _ Hon)| | |]; cbv beta.
  - inc.
  - inc1.
  - intros Hh [HP R]. destruct (HH Hh HP) as (x & A & B & T & Hx & HA & HB' & HT). exists x, (chord A B T). auto.
  - auto.
  - intros e o _ [HP R] RW h x A B T Hx HA HB' HT. auto.
  - intros o _. apply incl_appl, incl_refl.
Qed.
Lemma W_line_equal L (Pre : env -> Prop) (Hon : Prop) (f : vec) (Q : g2pt) (P : ecpt) : vpre L f -> incl (gcells Q) L -> incl (pcells P) L -> ok12 f -> okg Q -> okp P ->
  (Hon -> Pre hval -> exists x (A : pt2) T, wred True hval f x /\ gred True hval Q A /\ pred1 True hval P T) ->
  hcalc L Pre Hon (fp12_multiply_with_line_equal lb ch xi0 f Q P) ok12 (fun e o => forall h x (A : pt2) T, wred h e f x -> gred h e Q A -> pred1 h e P T -> wred h e o (wmul x (tang A T))) vcells.
Proof.
  intros Cf C0 CP Kf K0 KP HH. unfold fp12_multiply_with_line_equal.
  eapply h_bind; [apply (L_eq L Pre Hon Q P C0 CP K0 KP)|]; cbv beta. { intros Hh HP. destruct (HH Hh HP) as (x & A & T & _ & ?). eauto. }
  intros l Kl. eapply h_post; [apply (W_sp f l Kf Kl _ _ Hon)| | |]; cbv beta.
  - inc.
  - inc1.
  - intros Hh [HP R]. destruct (HH Hh HP) as (x & A & T & Hx & HA & HT). exists x, (tang A T). auto.
  - auto.
  - intros e o _ [HP R] RW h x A T Hx HA HT. auto.
  - intros o _. apply incl_appl, incl_refl.
Qed.
(** ** A sparse element as an element of Fp12 *)
Lemma sred_hon (h : Prop) (e : env) (s : list (option vec)) (x : w6) : oks6 s -> sred h e s x -> h -> e = hval.
Proof.
  intros (_ & _ & j & a & Ej) H Hh. unfold PairOps.sred in H. assert (Hx : exists v, nth_error (w6_list x) j = Some v). { destruct (nth_error (w6_list x) j) eqn:E; [eauto|]. apply nth_error_None in E. rewrite <- (Forall2_len _ _ _ H) in E. assert (j < length s)%nat by (apply nth_error_Some; congruence). lia. }
  destruct Hx as (v & Ev). pose proof (F2_nth _ _ _ _ _ _ H Ej Ev) as O. exact (red2_hon lb m Hlb Hlb2 n h e a v O Hh).
Qed.
Lemma W_to12 L (Pre : env -> Prop) (Hon : Prop) (s : list (option vec)) : incl (scells s) L -> oks6 s ->
  hcalc L Pre Hon (sparse_to_fp12 m ch s) ok12 (fun e o => forall h x, sred h e s x -> wred h e o x) vcells.
Proof.
  intros C Ks. pose proof Ks as (Ls & Fs & _). unfold sparse_to_fp12. cbv zeta.
  eapply h_bind; [apply (l_const L Pre Hon F0)|]. cbv beta. intros z Kz.
  assert (G : forall i (g : x2 m -> Fm), (forall x : x2 m, nth_error (prs x) i = Some (g x)) -> g x2_0 = F0 -> (i < 2)%nat -> forall L' (Pre' : env -> Prop), incl (ccells z ++ L) L' -> (forall e, Pre' e -> forall h : Prop, (h -> e = hval) -> fred h e z F0) ->
     hcalc L' Pre' Hon (mapM (fun c => match c with Some v => lift (nth_error v i) | None => ret z end) s) (fun o => length o = 6%nat /\ vism o) (fun e o => forall h x, sred h e s x -> vred h e o (map g (w6_list x))) vcells).
  { intros i g Hg Hg0 Hi L' Pre' HL HZ.
    eapply h_post; [apply (h_mapM lb L' Pre' Hon _ (fun _ o => isk o n) (fun e c o => forall (h : Prop) v, (h -> e = hval) -> oval h e c v -> fred h e o (g v)) ccells)| | |]; cbv beta.
    - intros c Hc. rewrite Forall_forall in Fs. specialize (Fs c Hc). destruct c as [v|].
      + destruct Fs as [Lv Kv]. destruct (nth_error v i) as [y|] eqn:Ey; [|apply nth_error_None in Ey; lia]. eapply h_post; [apply h_lift; eauto| | |]; cbv beta.
        * intros ? [= <-]. unfold ExtProofs.vism in Kv. rewrite Forall_forall in Kv. apply Kv. eapply nth_error_In; eauto.
        * intros e ? [= <-] _ _ h w _ Ho. cbn [PairOps.oval] in Ho. unfold ExtProofs3.red2, ExtProofs.vred in Ho. exact (F2_nth _ _ _ _ _ _ Ho Ey (Hg w)).
        * intros ? [= <-]. apply incl_appr. eapply incl_tran; [|exact HL]. apply incl_appr. eapply incl_tran; [|exact C]. intros u Hu. unfold scells. apply in_flat_map. exists (Some v). split; auto. cbn [ocells]. unfold vcells. apply in_flat_map. exists y. split; auto. eapply nth_error_In; eauto.
      + apply h_ret; [exact Kz|eapply incl_tran; [|exact HL]; apply incl_appl, incl_refl|]. intros e HP h v He ->. rewrite Hg0. eauto.
    - intros o H. split; [rewrite <- (Forall2_len _ _ _ H); exact Ls|]. clear - H. induction H; constructor; auto.
    - intros e o _ HP R h x Hs. pose proof (sred_hon h e s x Ks Hs) as He. unfold PairOps.sred in Hs. unfold ExtProofs.vred. clear - R Hs He. revert o R. induction Hs as [|c v s l O Hs IH]; intros o R; inversion R; subst; cbn [map]; constructor; auto.
    - intros o _. apply incl_appl, incl_refl. }
  eapply h_bind; [apply (G 0%nat fst); auto; [apply incl_refl|now intros e [_ R]]|]. cbv beta. intros x0 [L0 K0]. cbn [app].
  eapply h_bind; [eapply (G 1%nat snd); auto; [inc1|now intros e [[_ R] _]]|]. cbv beta. intros x1 [L1 K1]. cbn [app].
  apply h_ret.
  - split; [rewrite app_length; lia|apply Forall_app; auto].
  - unfold vcells. rewrite flat_map_app. apply incl_app; fold (vcells x0) (vcells x1); inc1.
  - intros e [[_ R0] R1] h x Hs. unfold FinalHigh.wred, enc, w_to, ExtProofs.vred. apply Forall2_app; [exact (R0 h x Hs)|exact (R1 h x Hs)].
Qed.
(** ** The constants *)
Notation g1 := (gam (m:=m) xi0 1).
Definition cred (e : env) (cs : vec * vec) : Prop := forall h : Prop, (h -> e = hval) -> red2 h e (fst cs) (x2_mul g1 g1) /\ red2 h e (snd cs) (x2_mul (x2_mul g1 g1) g1).
Definition okcs (cs : vec * vec) : Prop := (length (fst cs) = 2%nat /\ vism (fst cs)) /\ (length (snd cs) = 2%nat /\ vism (snd cs)).
Lemma W_load L (Pre : env -> Prop) (Hon : Prop) : hcalc L Pre Hon (load_c2_c3 m ch ftab) okcs cred (fun cs => vcells (fst cs) ++ vcells (snd cs)).
Proof.
  unfold load_c2_c3. rewrite (Htab 1%nat ltac:(lia)). eapply h_lift_bind; [eauto|intros ? [= <-]]. cbv zeta.
  assert (G : forall L' P (x : x2 m), hcalc L' P Hon (vec_load_constant m ch (prs x)) (fun o => length o = 2%nat /\ vism o) (fun e o => forall h : Prop, (h -> e = hval) -> red2 h e o x) vcells).
  { intros L' P x. eapply h_post; [apply (v_load_constant lb m Hp Hlb Hlb2 Hm ch n k HN HK L' P Hon (prs x))| | |]; cbv beta; auto.
    - intros e o _ _ V h He. specialize (V h He). unfold ExtProofs3.red2, ExtProofs.vred. unfold vcan in V. induction V; constructor; auto. now apply (fcan_fred lb m Hlb Hlb2 Hm).
    - intros o _. apply incl_appl, incl_refl. }
  eapply h_bind; [apply G|]. cbv beta. intros v2 K2. eapply h_bind; [apply G|]. cbv beta. intros v3 K3. cbn [app].
  apply h_ret; [split; auto|cbn [fst snd]; apply incl_app; inc1|]. intros e [[_ R2] R3] h He. cbn [fst snd]. auto.
Qed.
(** ** One digit of the Miller loop *)
Notation st12 := (w6 * pt2)%type.
Definition sdigit (A : pt2) T (st : st12) (d : Z) : option st12 :=
  let '(x, B) := st in match pt_dbl B with None => None | Some BB => if Z.eqb d 0 then Some (x, BB) else miller_add xi0 T (x, BB) (signed d A) end.
Lemma iter_digit (A : pt2) T (x : w6) (B : pt2) d : miller_iter xi0 A T (x, B) d = sdigit A T (wmul (wmul x x) (tang B T), B) d.
Proof. unfold miller_iter, miller_dbl, sdigit. now destruct (pt_dbl B). Qed.
Definition mcells (st : vec * g2pt) : list AV := vcells (fst st) ++ gcells (snd st).
Definition okm (st : vec * g2pt) : Prop := ok12 (fst st) /\ okg (snd st).
Definition mred (h : Prop) (e : env) (st : vec * g2pt) (v : st12) : Prop := wred h e (fst st) (fst v) /\ gred h e (snd st) (snd v).
Definition dig_ok (d : Z) : Prop := -1 <= d <= 1.
Section Digit.
Variables (Q nQ : g2pt) (P : ecpt).
Hypothesis KQ : okg Q.
Hypothesis KnQ : okg nQ.
Hypothesis KP : okp P.
Definition nrel (e : env) : Prop := forall h (A : pt2), gred h e Q A -> gred h e nQ (pt_neg A).
Lemma W_digit L (Pre : env -> Prop) (Hon : Prop) (f : vec) (R : g2pt) d : incl (gcells Q) L -> incl (gcells nQ) L -> incl (pcells P) L -> vpre L f -> incl (gcells R) L -> ok12 f -> okg R -> (forall e, Pre e -> nrel e) ->
  (Hon -> dig_ok d) -> (Hon -> Pre hval -> exists (A : pt2) T v w, gred True hval Q A /\ pred1 True hval P T /\ mred True hval (f, R) v /\ sdigit A T v d = Some w) ->
  hcalc L Pre Hon (miller_digit lb m ch xi0 hint2 Q nQ P (f, R) d) okm (fun e o => forall h (A : pt2) T v w, gred h e Q A -> pred1 h e P T -> mred h e (f, R) v -> sdigit A T v d = Some w -> mred h e o w) mcells.
Proof.
  intros CQ CnQ CP Cf CR Kf KR HnQ Hd HH. unfold miller_digit.
  eapply h_bind; [apply (G_dbl L Pre Hon R CR KR)|]; cbv beta.
  { intros Hh HP. destruct (HH Hh HP) as (A & T & [x B] & w & HA & HT & [Hx HB'] & E). cbn [fst snd] in *. unfold sdigit in E. destruct (pt_dbl B) as [BB|] eqn:EB; [|discriminate]. eauto. }
  intros R2 KR2.
  eapply h_assert_bind. { intros Hh _. destruct (Hd Hh). apply andb_true_iff. split; apply Z.leb_le; lia. } intros Hdd. apply andb_true_iff in Hdd as [D1 D2]. apply Z.leb_le in D1, D2.
  destruct (Z.eqb_spec d 0) as [D0|D0].
  - apply h_ret; [split; auto|unfold mcells; cbn [fst snd]; apply incl_app; inc1|].
    intros e [HP RR] h A T [x B] w HA HT [Hx HB'] E. cbn [fst snd] in *. unfold sdigit in E. destruct (pt_dbl B) as [BB|] eqn:EB; [|discriminate]. subst d. cbn [Z.eqb] in E. injection E as <-. split; cbn [fst snd]; eauto.
  - cbv zeta. set (S := if Z.eqb d 1 then Q else nQ).
    assert (KS : okg S) by (unfold S; destruct (Z.eqb d 1); auto). assert (CS : incl (gcells S) L) by (unfold S; destruct (Z.eqb d 1); auto).
    assert (RS : forall e, Pre e -> forall h (A : pt2), gred h e Q A -> gred h e S (signed d A)). { intros e HP h A HA. unfold S, signed. destruct (Z.eqb d 1); [auto|]. now apply (HnQ e HP). }
    assert (DS : forall A T x B w, sdigit A T (x, B) d = Some w -> exists BB C, pt_dbl B = Some BB /\ pt_add BB (signed d A) = Some C /\ w = (wmul x (chord BB (signed d A) T), C)).
    { intros A T x B w E. unfold sdigit in E. destruct (pt_dbl B) as [BB|] eqn:EB; [|discriminate]. destruct (Z.eqb_spec d 0); [contradiction|]. unfold miller_add in E. destruct (pt_add BB (signed d A)) as [C|] eqn:EC; [|discriminate]. injection E as <-. eauto. }
    eapply h_bind; [eapply (W_line_unequal _ _ Hon f R2 S P); auto; try inc; try inc1|]; cbv beta.
    { intros Hh [HP RR]. destruct (HH Hh HP) as (A & T & [x B] & w & HA & HT & [Hx HB'] & E). destruct (DS _ _ _ _ _ E) as (BB & C & EB & EC & ->). cbn [fst snd] in *. exists x, BB, (signed d A), T. split; [auto|]. split; [eauto|]. split; auto. }
    intros f2 Kf2. cbn [app].
    eapply h_bind; [eapply (G_ad _ _ Hon R2 S); auto; try inc1|]; cbv beta.
    { intros Hh [[HP RR] _]. destruct (HH Hh HP) as (A & T & [x B] & w & HA & HT & [Hx HB'] & E). destruct (DS _ _ _ _ _ E) as (BB & C & EB & EC & ->). cbn [fst snd] in *. exists BB, (signed d A), C. split; [eauto|]. split; auto. }
    intros R3 KR3. cbn [app].
    apply h_ret; [split; auto|unfold mcells; cbn [fst snd]; apply incl_app; inc1|].
    intros e [[[HP RR] RF] RA] h A T [x B] w HA HT [Hx HB'] E. destruct (DS _ _ _ _ _ E) as (BB & C & EB & EC & ->). cbn [fst snd] in *. pose proof (RR _ _ _ HB' EB) as H2. pose proof (RS _ HP _ _ HA) as HS. split; cbn [fst snd]; eauto.
Qed.
Lemma W_step L (Pre : env -> Prop) (Hon : Prop) (f : vec) (R : g2pt) d : incl (gcells Q) L -> incl (gcells nQ) L -> incl (pcells P) L -> vpre L f -> incl (gcells R) L -> ok12 f -> okg R -> (forall e, Pre e -> nrel e) ->
  (Hon -> dig_ok d) -> (Hon -> Pre hval -> exists (A : pt2) T v w, gred True hval Q A /\ pred1 True hval P T /\ mred True hval (f, R) v /\ miller_iter xi0 A T v d = Some w) ->
  hcalc L Pre Hon (miller_step lb m ch xi0 hint2 Q nQ P (f, R) d) okm (fun e o => forall h (A : pt2) T v w, gred h e Q A -> pred1 h e P T -> mred h e (f, R) v -> miller_iter xi0 A T v d = Some w -> mred h e o w) mcells.
Proof.
  intros CQ CnQ CP Cf CR Kf KR HnQ Hd HH. unfold miller_step.
  eapply h_bind; [apply (W_mul lb m Hp Hlb Hlb2 Hm ch n k HN HK xi0 Hxi1 Hxi Hroom HB L Pre Hon f f Cf Cf Kf Kf)|]; cbv beta.
  { intros Hh HP. destruct (HH Hh HP) as (A & T & [x B] & w & HA & HT & [Hx HB'] & E). cbn [fst snd] in *. eauto. }
  intros f2 Kf2. cbn [app].
  eapply h_bind; [eapply (W_line_equal _ _ Hon f2 R P); auto; try inc; try inc1|]; cbv beta.
  { intros Hh [HP RM]. destruct (HH Hh HP) as (A & T & [x B] & w & HA & HT & [Hx HB'] & E). cbn [fst snd] in *. exists (wmul x x), B, T. auto. }
  intros f3 Kf3. cbn [app].
  eapply h_post; [eapply (W_digit _ _ Hon f3 R d); auto; try inc; try inc1| | |]; cbv beta.
  - intros e [[HP _] _]. auto.
  - intros Hh [[HP RM] RL]. destruct (HH Hh HP) as (A & T & [x B] & w & HA & HT & [Hx HB'] & E). cbn [fst snd] in *. rewrite iter_digit in E. exists A, T, (wmul (wmul x x) (tang B T), B), w. split; auto. split; auto. split; auto. split; cbn [fst snd]; auto.
  - auto.
  - intros e o _ [[HP RM] RL] RD h A T [x B] w HA HT [Hx HB'] E. cbn [fst snd] in *. rewrite iter_digit in E. eapply RD; eauto. split; cbn [fst snd]; auto.
  - intros o _. apply incl_appl, incl_refl.
Qed.
Lemma frob_ok (A : pt2) : (x2_mul (x2_mul g1 g1) (x2_conj (fst A)), x2_mul (x2_mul (x2_mul g1 g1) g1) (x2_conj (snd A))) = pt_frob xi0 A.
Proof. unfold pt_frob. reflexivity. Qed.
Lemma neg_frob_ok (A : pt2) : (x2_mul (x2_mul g1 g1) (x2_conj (fst A)), x2_mul (x2_mul (x2_mul g1 g1) g1) (x2_opp (x2_conj (snd A)))) = pt_neg (pt_frob xi0 A).
Proof. unfold pt_frob, pt_neg. cbn [fst snd]. apply f_equal2; ring. Qed.
Lemma W_end L (Pre : env -> Prop) (Hon : Prop) (cs : vec * vec) (f : vec) (R : g2pt) : incl (gcells Q) L -> incl (pcells P) L -> vpre L f -> incl (gcells R) L -> vpre L (fst cs) -> vpre L (snd cs) -> ok12 f -> okg R -> okcs cs -> (forall e, Pre e -> cred e cs) ->
  (Hon -> zcap (p:=p) n k) -> (Hon -> Pre hval -> exists (A : pt2) T v w, gred True hval Q A /\ pred1 True hval P T /\ mred True hval (f, R) v /\ miller_final xi0 A T v = Some w) ->
  hcalc L Pre Hon (miller_end lb m ch xi0 hint2 Q P (fst cs) (snd cs) f R) ok12 (fun e o => forall h (A : pt2) T v w, gred h e Q A -> pred1 h e P T -> mred h e (f, R) v -> miller_final xi0 A T v = Some w -> wred h e o w) vcells.
Proof.
  intros CQ CP Cf CR Cc2 Cc3 Kf KR [Kc2 Kc3] HC HZ HH. unfold miller_end.
  assert (DF : forall (A : pt2) T (x : w6) (B : pt2) w, miller_final xi0 A T (x, B) = Some w -> exists C, pt_add B (pt_frob xi0 A) = Some C /\ w = wmul (wmul x (chord B (pt_frob xi0 A) T)) (chord C (pt_neg (pt_frob xi0 (pt_frob xi0 A))) T)).
  { intros A T x B w E. unfold miller_final, miller_add in E. destruct (pt_add B (pt_frob xi0 A)) as [C|]; [|discriminate]. injection E as <-. eauto. }
  eapply h_bind; [apply (G_frob lb m Hp Hlb Hlb2 Hm ch n k HN HK xi0 Hxi Hroom HB L Pre Hon Q (fst cs) (snd cs) (x2_mul g1 g1) (x2_mul (x2_mul g1 g1) g1)); auto|]; cbv beta.
  { intros Hh HP. destruct (HH Hh HP) as (A & T & v & w & HA & _). eauto. }
  intros Q1 K1.
  eapply h_bind; [eapply (G_neg_frob lb m Hp Hlb Hlb2 Hm ch n k HN HK xi0 Hxi Hroom HB _ _ Hon Q1 (fst cs) (snd cs) (x2_mul g1 g1) (x2_mul (x2_mul g1 g1) g1)); auto; try inc; try inc1|]; cbv beta.
  { intros e [HP _]. apply HC, HP. }
  { intros Hh [HP R1]. destruct (HH Hh HP) as (A & T & v & w & HA & _). eauto. }
  intros Q2 K2. cbn [app].
  eapply h_bind; [eapply (W_line_unequal _ _ Hon f R Q1 P); auto; try inc; try inc1|]; cbv beta.
  { intros Hh [[HP R1] R2]. destruct (HH Hh HP) as (A & T & [x B] & w & HA & HT & [Hx HB'] & E). exists x, B, (pt_frob xi0 A), T. split; [auto|]. split; [auto|]. split; auto. rewrite <- frob_ok. auto. }
  intros f2 Kf2. cbn [app].
  eapply h_bind; [eapply (G_ad _ _ Hon R Q1); auto; try inc1|]; cbv beta.
  { intros Hh [[[HP R1] R2] _]. destruct (HH Hh HP) as (A & T & [x B] & w & HA & HT & [Hx HB'] & E). destruct (DF _ _ _ _ _ E) as (C & EC & _). exists B, (pt_frob xi0 A), C. split; [auto|]. split; auto. rewrite <- frob_ok. auto. }
  intros R3 KR3. cbn [app].
  assert (V : forall e, Pre e -> forall (h : Prop) (A : pt2), True). { auto. }
  eapply h_post; [eapply (W_line_unequal _ _ Hon f2 R3 Q2 P); auto; try inc; try inc1| | |]; cbv beta.
  - intros Hh [[[[HP R1] R2] R3'] R4]. destruct (HH Hh HP) as (A & T & [x B] & w & HA & HT & [Hx HB'] & E). destruct (DF _ _ _ _ _ E) as (C & EC & _). cbn [fst snd] in *.
    pose proof (R1 _ _ HA) as H1. rewrite frob_ok in H1. pose proof (R2 _ _ H1) as H2. rewrite neg_frob_ok in H2. exists (wmul x (chord B (pt_frob xi0 A) T)), C, (pt_neg (pt_frob xi0 (pt_frob xi0 A))), T. split; [auto|]. split; [eauto|]. split; auto.
  - auto.
  - intros e o _ [[[[HP R1] R2] R3'] R4] R5 h A T [x B] w HA HT [Hx HB'] E. destruct (DF _ _ _ _ _ E) as (C & EC & ->). cbn [fst snd] in *.
    pose proof (R1 _ _ HA) as H1. rewrite frob_ok in H1. pose proof (R2 _ _ H1) as H2. rewrite neg_frob_ok in H2. apply R5; auto. eauto.
  - intros o _. apply incl_appl, incl_refl.
Qed.
End Digit.
End Pair.
