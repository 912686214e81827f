(** The Miller loops and pairing (Pairing.v) on the values their arguments stand for. *)
From Coq Require Import ZArith NArith Znumtheory Lia List Bool Ring.
From Verif Require Import Field Spec Context ContextProofs Utils Logic Gate GateProofs ChainProofs IPProofs BitProofs PowProofs IPComp Derived
  Range RangeProofs RangeProofs2 RangeProofs3 RegionGets Calc CalcH RegionPrev RegionLast BigPrims BigNum BigInt BigSpec BigOps BigSel BigCmp BigSub BigCarry BigMod BigCrtNum BigCrt FpChip FpProofs FpProofs2 FpProofs3 FpField FpField2 FpField3 FieldExt ExtSpec ExtSpec2 ExtProofs ExtProofs2 ExtProofs3 ExtProofs4 ExtProofs5 FinalExp GaussOps RingPow CycSpec FrobSpec Cyclo FinalProofs FinalProofs2 FinalProofs3 FinalHigh Ecc MillerSpec Pairing PairOps PairOps2 PairOps3.
Import ListNotations.
Local Open Scope Z_scope.

Section Pair.
Context {p : positive}.
Notation Fp := (F p).
Notation AV := (AV p).
Notation crt := (crt p).
Notation vec := (list crt).
Variables (lb : nat) (m : positive).
Notation env := (env (p:=p)).
Notation hcalc := (hcalc lb).
Hypothesis Hp : prime (Z.pos p).
Hypothesis Hlb : (1 <= lb < 64)%nat.
Hypothesis Hlb2 : (2 * lb <= CAPACITY p)%nat.
Hypothesis Hm : 1 < Z.pos m.
Add Ring Fring : (F_ring p) (morphism (F_morph p), constants [Fcst]).
Add Ring Fringm : (F_ring m) (morphism (F_morph m), constants [Fcst]).
Add Ring X2ringd : (x2_ring (m:=m)).
Variables (ch : fpchip p) (n k : nat).
Hypothesis HN : fpchip_new m n k = Some ch.
Hypothesis HK : fp_params (p:=p) lb m n k.
Notation mz := (Z.pos m).
Notation Fm := (F m).
Notation M2 := (2 ^ Z.of_nat (bits mz)).
Notation W := (2 ^ Z.of_nat (n * k + NUM_BITS p)).
Notation frep := (frep (p:=p) m n).
Notation fred := (fred (p:=p) m n).
Notation isk := (isk k).
Notation lg := (log2_ceil (Z.of_nat k)).
Notation islk := (islk k).
Notation room := (room (p:=p) lb n k).
Notation visk := (visk k).
Notation vism := (vism n k).
Notation vrep := (vrep m n).
Notation vred := (vred m n).
Notation red2 := (red2 (p:=p) m n).
Notation of2 := (of2 m).
Notation zv := (zv n).
Variable (xi0 : Z).
Hypothesis Hxi1 : 1 <= Z.abs xi0.
Notation lx := (Nat.max (log2_ceil (Z.abs xi0)) (log2_ceil (Z.abs (xi0 + 1)))).
Hypothesis Hxi : - 2 ^ 63 < xi0 < 2 ^ 63 - 1.
Hypothesis Hroom : room (lg + n + n + 9 + lx + 1).
Hypothesis HB : 8 * ((12 * Z.abs xi0 + 12) * (M2 * M2) + 2 * M2) < W.
Notation xi := (xi (m:=m) xi0).

Notation Q_add := (q_add lb m Hlb Hlb2 n k).
Notation Q_sub := (q_sub lb m Hlb Hlb2 n k).
Notation Q_smul := (q_smul lb m Hlb Hlb2 n k).
Notation Q_smul_add := (q_smul_add lb m Hlb Hlb2 n k).
Notation Q_mul := (q_mul lb m Hp Hlb Hlb2 Hm ch n k HN HK).
Notation Q_w6 := (q_w6 lb m Hlb Hlb2 n k).
Notation Q_select := (q_select lb m Hp Hlb Hlb2 n k).
Notation Q_carry := (q_carry lb m Hp Hlb Hlb2 Hm ch n k HN HK).
Notation Q_divide := (q_divide lb m Hp Hlb Hlb2 Hm ch n k HN HK).
Notation Q_plus_one := (q_plus_one lb m Hlb Hlb2 ch n k HN HK).

Ltac inc1 := first [ assumption | apply incl_refl | (apply incl_appl; inc1) | (apply incl_appr; inc1) ].
Ltac inc := cbn [app]; first [ assumption | (unfold cpre, vpre; inc1) | (eapply cpre_incl; [eassumption|inc1]) | (eapply vpre_incl; [eassumption|inc1]) ].
Tactic Notation "qb" uconstr(lem) := eapply h_bind; [eapply lem; try inc; try eassumption; try lia|]; cbv beta; [..|let c := fresh "c" in let L := fresh "Lc" in let K := fresh "K" in intros c [L K]; cbn [app]].
Ltac zf1 :=
  match goal with
  | H : _ /\ _ |- _ => lazymatch type of H with (_ <= _ < _)%nat => fail | (_ <= _ < _)%Z => fail | _ => destruct H end
  | H : forall h x y, zv h ?e ?a x -> zv h ?e ?b y -> zv h ?e ?c _, A : zv ?h ?e ?a ?x, B : zv ?h ?e ?b ?y |- _ => specialize (H h x y A B); cbv beta in H
  | H : forall h x y, zv h ?e ?a x -> zv h ?e ?a y -> zv h ?e ?c _, A : zv ?h ?e ?a ?x |- _ => specialize (H h x x A A); cbv beta in H
  | H : forall h x, zv h ?e ?a x -> zv h ?e ?c _, A : zv ?h ?e ?a ?x |- _ => specialize (H h x A); cbv beta in H
  end.
Declare Scope x2_scope.
Notation "a + b" := (x2_add a b) : x2_scope.
Notation "a - b" := (x2_sub a b) : x2_scope.
Notation "a * b" := (x2_mul a b) : x2_scope.
Delimit Scope x2_scope with X.
Notation two := (x2_add (x2_1 (m:=m)) x2_1).
Notation three := (x2_add (x2_add (x2_1 (m:=m)) x2_1) x2_1).

Notation reds := (reds (p:=p) m n).
Notation viss := (viss (p:=p) n k).
Notation prs x := [fst (x : x2 m); snd (x : x2 m)].


Variables (hint2 hint12 : list Fm -> list Fm -> list Fm) (ftab : list (x2 m)).
Hypothesis Hmp : prime (Z.pos m).
Hypothesis H3 : Z.pos m mod 4 = 3.
Hypothesis H6 : Z.pos m mod 6 = 1.
Hypothesis Htab : forall j, (j < 12)%nat -> nth_error ftab j = Some (gam (m:=m) xi0 j).
Hypothesis Hz6 : primitive6 (m:=m) xi0.
Notation q := (N.pos m).
Notation w6 := (w6 (m:=m)).
Notation wmul := (w6_mul (m:=m) xi0).
Notation pw := (npow (w6_1 (m:=m)) wmul).
Notation WR := (w6_ring (m:=m) xi0).
Notation cyc := (cyc (m:=m) xi0).
Add Ring W6ringh : WR.
Notation wred := (wred m n).
Notation ok12 := (ok12 n k).
Notation unit12 := (unit12 m xi0).
Hypothesis Hh2 : forall x y : x2 m, hint2 (prs x) (prs y) = prs (x2_mul x (x2_inv y)).
Notation SZ := (SZ m n).
Notation SR := (SR m n).
Notation SF := (SF m n).
Notation S_SZ := (SR_SZ lb m Hlb Hlb2 n).
Notation S_add := (s_add lb m Hlb Hlb2 n k xi0 HB).
Notation S_mul := (s_mul lb m Hp Hlb Hlb2 Hm ch n k HN HK).
Notation S_w6 := (s_w6 lb m Hlb Hlb2 n k xi0 Hxi1 Hxi HB).
Notation S_carry := (s_carry lb m Hp Hlb Hlb2 Hm ch n k HN HK xi0 Hroom HB).
Notation g2pt := (g2pt p).
Notation ecpt := (ecpt p).
Notation pt2 := (pt2 (m:=m)).
Notation gred := (gred m n).
Notation okg := (okg n k).
Notation pred1 := (pred1 m n).
Notation okp := (okp n k).
Notation sred := (sred m n).
Notation oval := (oval m n).
Notation oks6 := (oks6 n k).
Notation okc := (okc n k).
Notation w6_nth := (w6_nth m).
Notation chord A B T := (chord_at xi0 (twist xi0 A) (twist xi0 B) (embed T)).
Notation tang A T := (tangent_at xi0 (twist xi0 A) (embed T)).
Notation st12 := (w6 * pt2)%type.
Notation mred := (mred m n).
Notation okm := (okm n k).
Notation cred := (cred m n xi0).
Notation okcs := (okcs n k).
Notation nrel := (nrel m n).
Notation sdigit := (sdigit m xi0).

Lemma h_panic {B} L (Pre : env -> Prop) (Hon : Prop) (P : B -> Prop) (R : env -> B -> Prop) cs : (Hon -> False) -> hcalc L Pre Hon panic P R cs.
Proof.
  intros H. change (panic : Context.M p B) with (lift (p:=p) (None : option B)). eapply h_post; [apply h_lift; intros Hh; destruct (H Hh)| | |]; cbv beta; intros; discriminate.
Qed.
(** ** A loop on values *)
Fixpoint ofold {A B} (g : B -> A -> option B) (l : list A) (b : B) : option B := match l with [] => Some b | x :: l => match g b x with None => None | Some b => ofold g l b end end.
Lemma h_fold_rel {A B VA VB : Type} (Hon : Prop) (L0 : list AV) (Inv : env -> Prop) (step : B -> A -> Context.M p B) (okA : A -> Prop) (okB : B -> Prop) (csA : A -> list AV) (csB : B -> list AV)
  (RA : Prop -> env -> A -> VA -> Prop) (RB : Prop -> env -> B -> VB -> Prop) (sv : VB -> VA -> option VB) :
  (forall L (Pre : env -> Prop) b a, incl L0 L -> (forall e, Pre e -> Inv e) -> incl (csA a) L -> incl (csB b) L -> okA a -> okB b ->
     (Hon -> Pre hval -> exists vb va w, RB True hval b vb /\ RA True hval a va /\ sv vb va = Some w) ->
     hcalc L Pre Hon (step b a) okB (fun e o => forall h vb va w, RB h e b vb -> RA h e a va -> sv vb va = Some w -> RB h e o w) csB) ->
  forall l b L (Pre : env -> Prop), incl L0 L -> (forall e, Pre e -> Inv e) -> (forall a, In a l -> incl (csA a) L) -> incl (csB b) L -> Forall okA l -> okB b ->
     (Hon -> Pre hval -> exists vb vas w, RB True hval b vb /\ Forall2 (RA True hval) l vas /\ ofold sv vas vb = Some w) ->
     hcalc L Pre Hon (foldM step l b) okB (fun e o => forall h vb vas w, RB h e b vb -> Forall2 (RA h e) l vas -> ofold sv vas vb = Some w -> RB h e o w) csB.
Proof.
  intros HS. induction l as [|a l IH]; intros b L Pre HL0 HI HA HCB HOA HOB HH; cbn [foldM].
  - apply h_ret; auto. intros e _ h vb vas w Hb Hv E. inversion Hv; subst. cbn [ofold] in E. injection E as <-. exact Hb.
  - inversion HOA; subst. eapply h_bind; [apply (HS L Pre b a); auto; [apply HA; now left|]|]; cbv beta.
    { intros Hh HP. destruct (HH Hh HP) as (vb & vas & w & Hb & Hv & E). inversion Hv; subst. cbn [ofold] in E. destruct (sv vb y) as [w'|] eqn:Es; [|discriminate]. exists vb, y, w'. auto. }
    intros b2 Kb2. eapply h_post; [eapply (IH b2 _ _); auto| | |]; cbv beta.
    + now apply incl_appr.
    + intros e [HP _]. auto.
    + intros x Hx. apply incl_appr, HA. now right.
    + apply incl_appl, incl_refl.
    + intros Hh [HP R]. destruct (HH Hh HP) as (vb & vas & w & Hb & Hv & E). inversion Hv; subst. cbn [ofold] in E. destruct (sv vb y) as [w'|] eqn:Es; [|discriminate]. exists w', l', w. split; [eauto|]. auto.
    + auto.
    + intros e o _ [HP R] R2 h vb vas w Hb Hv E. inversion Hv; subst. cbn [ofold] in E. destruct (sv vb y) as [w'|] eqn:Es; [|discriminate]. eauto.
    + intros o _. apply incl_appl, incl_refl.
Qed.
Notation W_dig := (W_digit lb m Hp Hlb Hlb2 Hm ch n k HN HK xi0 Hxi1 Hxi Hroom HB hint2 Hmp H3 H6 Hh2).
Notation W_stp := (W_step lb m Hp Hlb Hlb2 Hm ch n k HN HK xi0 Hxi1 Hxi Hroom HB hint2 Hmp H3 H6 Hh2).
Notation W_fin := (W_end lb m Hp Hlb Hlb2 Hm ch n k HN HK xi0 Hxi1 Hxi Hroom HB hint2 Hmp H3 Hh2).
Notation L_eq := (L_equal lb m Hp Hlb Hlb2 Hm ch n k HN HK xi0 Hxi1 Hxi Hroom HB).
Notation G_neg := (G_negate lb m Hp Hlb Hlb2 Hm ch n k HN HK).
Notation W_12 := (W_to12 lb m Hp Hlb Hlb2 Hm ch n k HN HK xi0 HB).
Notation W_ld := (W_load lb m Hp Hlb Hlb2 Hm ch n k HN HK xi0 HB ftab Htab).

(** ** The Miller loop *)
Definition ov (A : pt2) (T : Fm * Fm) (o : option st12) : option (pt2 * (Fm * Fm) * st12) := match o with None => None | Some v => Some (A, T, v) end.
Definition lsv (v : pt2 * (Fm * Fm) * st12) (d : Z) : option (pt2 * (Fm * Fm) * st12) := ov (fst (fst v)) (snd (fst v)) (miller_iter xi0 (fst (fst v)) (snd (fst v)) (snd v) d).
Lemma ofold_iters (A : pt2) T ds : forall v, ofold lsv ds (A, T, v) = ov A T (miller_iters xi0 A T v ds).
Proof. induction ds as [|d ds IH]; intros v; [reflexivity|]. cbn [ofold miller_iters]. unfold lsv at 1. cbn [fst snd]. destruct (miller_iter xi0 A T v d) as [w|]; cbn [ov]; auto. Qed.
Lemma F2_eq {A} (l l' : list A) : Forall2 eq l l' -> l = l'. Proof. induction 1; congruence. Qed.
Lemma F2_refl {A} (l : list A) : Forall2 eq l l. Proof. induction l; constructor; auto. Qed.
Lemma one_sq (t : w6) : wmul (wmul w6_1 w6_1) t = t. Proof. ring. Qed.
Lemma W_miller L (Pre : env -> Prop) (Hon : Prop) (Q : g2pt) (P : ecpt) (naf : list Z) : incl (gcells Q) L -> incl (pcells P) L -> okg Q -> okp P ->
  (Hon -> zcap (p:=p) n k) -> (Hon -> Forall dig_ok naf /\ (2 <= length (drop_zeros (rev naf)))%nat) ->
  (Hon -> Pre hval -> exists (A : pt2) T w, gred True hval Q A /\ pred1 True hval P T /\ miller xi0 A T (drop_zeros (rev naf)) = Some w) ->
  hcalc L Pre Hon (miller_loop_BN lb m ch xi0 ftab hint2 Q P naf) ok12 (fun e o => forall h (A : pt2) T w, gred h e Q A -> pred1 h e P T -> miller xi0 A T (drop_zeros (rev naf)) = Some w -> wred h e o w) vcells.
Proof.
  intros CQ CP KQ KP HZ HD HH. unfold miller_loop_BN.
  assert (DD : Hon -> Forall dig_ok (drop_zeros (rev naf))). { intros Hh. destruct (HD Hh) as [D _]. apply Forall_rev in D. revert D. clear. induction (rev naf) as [|d l IH]; intros D; cbn [drop_zeros]; auto. destruct (Z.eqb d 0); auto. inversion D; auto. }
  assert (LL : Hon -> (2 <= length (drop_zeros (rev naf)))%nat) by (intros Hh; apply HD, Hh). clear HD.
  assert (NZ : forall d r, drop_zeros (rev naf) = d :: r -> d <> 0). { clear. induction (rev naf) as [|x l IH]; cbn [drop_zeros]; [discriminate|]. destruct (Z.eqb_spec x 0); auto. intros d r [= -> ->]. auto. }
  destruct (drop_zeros (rev naf)) as [|d rest] eqn:ED. { apply h_panic. intros Hh. specialize (LL Hh). cbn [length] in LL. lia. }
  specialize (NZ d rest eq_refl).
  eapply h_bind; [apply (G_neg L Pre Hon Q CQ KQ HZ)|]; cbv beta. { intros Hh HP. destruct (HH Hh HP) as (A & T & w & HA & _). eauto. }
  intros nQ KnQ.
  eapply h_assert_bind. { intros Hh _. pose proof (Forall_inv (DD Hh)) as D. unfold dig_ok in D. destruct (Z.eqb_spec d 1); auto. destruct (Z.eqb_spec d (-1)); auto. lia. } intros Hd.
  cbv zeta. set (R := if Z.eqb d 1 then Q else nQ).
  destruct rest as [|d1 rest]. { apply h_panic. intros Hh. specialize (LL Hh). cbn [length] in LL. lia. }
  assert (KR : okg R) by (unfold R; destruct (Z.eqb d 1); auto). set (L1 := gcells nQ ++ L). assert (CR : incl (gcells R) L1) by (unfold R, L1; destruct (Z.eqb d 1); inc1).
  set (P1 := fun e : env => Pre e /\ nrel Q nQ e).
  assert (RS : forall e, P1 e -> forall h (A : pt2), gred h e Q A -> gred h e R (signed d A)). { intros e [_ HP] h A HA. unfold R, signed. destruct (Z.eqb d 1); [auto|]. now apply HP. }
  match goal with |- CalcH.hcalc _ _ ?X _ _ _ _ _ => change X with P1 end.
  assert (CP1 : incl (pcells P) L1) by (unfold L1; inc1). assert (CQ1 : incl (gcells Q) L1) by (unfold L1; inc1). assert (CnQ1 : incl (gcells nQ) L1) by (unfold L1; inc1).
  assert (HH1 : Hon -> P1 hval -> exists (A : pt2) T w, gred True hval Q A /\ pred1 True hval P T /\ miller xi0 A T (d :: d1 :: rest) = Some w) by (intros Hh [HP _]; auto). clear HH.
  assert (NREL : forall e, P1 e -> nrel Q nQ e) by (intros e [_ H]; exact H).
  clearbody P1 L1.
  assert (MM : forall (A : pt2) T w, miller xi0 A T (d :: d1 :: rest) = Some w -> exists v1 v, sdigit A T (tang (signed d A) T, signed d A) d1 = Some v1 /\ miller_iters xi0 A T v1 rest = Some v /\ miller_final xi0 A T v = Some w).
  { intros A T w E. cbn [miller miller_iters] in E. rewrite iter_digit, one_sq in E. destruct (sdigit A T (tang (signed d A) T, signed d A) d1) as [v1|]; [|discriminate]. destruct (miller_iters xi0 A T v1 rest) as [v|] eqn:Ei; [|discriminate]. eauto. }
  eapply h_bind; [apply (L_eq L1 P1 Hon R P); auto|]; cbv beta. { intros Hh HP. destruct (HH1 Hh HP) as (A & T & w & HA & HT & _). exists (signed d A), T. auto. }
  intros sf Ksf. eapply h_assert_bind; [destruct Ksf as [-> _]; auto|intros _].
  eapply h_bind; [eapply (W_12 _ _ Hon sf); auto; inc1|]. cbv beta. intros f Kf.
  eapply h_bind; [eapply (W_dig Q nQ P KQ KnQ KP _ _ Hon f R d1); auto; try inc; try inc1|]; cbv beta.
  { intros e [[HP _] _]. exact (NREL e HP). }
  { intros Hh. pose proof (DD Hh) as D. inversion D; subst. now apply Forall_inv in H2. }
  { intros Hh [[HP R1] R2]. destruct (HH1 Hh HP) as (A & T & w & HA & HT & E). destruct (MM _ _ _ E) as (v1 & v & E1 & _). exists A, T, (tang (signed d A) T, signed d A), v1. split; auto. split; auto. split; auto. split; cbn [fst snd]; auto. }
  intros st Kst.
  eapply h_bind.
  { eapply (h_fold_rel Hon L1 (nrel Q nQ) (miller_step lb m ch xi0 hint2 Q nQ P) (fun d => Hon -> dig_ok d) okm (fun _ => []) mcells (fun _ _ d v => d = v)
      (fun h e st v => gred h e Q (fst (fst v)) /\ pred1 h e P (snd (fst v)) /\ mred h e st (snd v)) lsv).
    - intros L' Pre' [f' R'] d' HL HI _ HC Hd' [Kf' KR'] HV. cbn [fst snd] in *.
      eapply h_post; [eapply (W_stp Q nQ P KQ KnQ KP L' Pre' Hon f' R' d'); auto; try (eapply incl_tran; [|exact HL]; auto; fail)| | |]; cbv beta.
      + eapply incl_tran; [|exact HC]. unfold mcells. cbn [fst snd]. apply incl_appl, incl_refl.
      + eapply incl_tran; [|exact HC]. unfold mcells. cbn [fst snd]. apply incl_appr, incl_refl.
      + intros Hh HP. destruct (HV Hh HP) as (vb & va & w & (HA & HT & Hm') & <- & E). destruct vb as [[A T] v]. unfold lsv in E. cbn [fst snd] in *. destruct (miller_iter xi0 A T v d') as [w'|] eqn:Ei; [|discriminate]. eauto 10.
      + auto.
      + intros e o _ _ RR h [[A T] v] va w (HA & HT & Hm') <- E. unfold lsv in E. cbn [fst snd] in *. destruct (miller_iter xi0 A T v d') as [w'|] eqn:Ei; [|discriminate]. injection E as <-. cbn [fst snd]. eauto.
      + intros o _. apply incl_appl, incl_refl.
    - inc1.
    - intros e [[[HP _] _] _]. exact (NREL e HP).
    - intros ? _ ? [].
    - inc1.
    - apply Forall_forall. intros d' Hd' Hh. pose proof (DD Hh) as D. rewrite Forall_forall in D. apply D. right. now right.
    - exact Kst.
    - intros Hh [[[HP R1] R2] R3]. destruct (HH1 Hh HP) as (A & T & w & HA & HT & E). destruct (MM _ _ _ E) as (v1 & v & E1 & E2 & E3). exists (A, T, v1), rest, (A, T, v). cbn [fst snd]. split; [|split; [apply F2_refl|rewrite ofold_iters, E2; reflexivity]].
      split; auto. split; auto. apply (R3 True A T (tang (signed d A) T, signed d A) v1); auto. split; cbn [fst snd]; auto. }
  cbv beta. intros st2 [Kf2 KR2].
  eapply h_bind; [apply W_ld|]. cbv beta. intros cs Kcs.
  eapply h_post; [eapply (W_fin Q P KQ KP _ _ Hon cs (fst st2) (snd st2)); auto; try inc; try inc1| | |]; cbv beta.
  - now intros e [_ RC].
  - intros Hh [[[[[HP R1] R2] R3] R4] _]. destruct (HH1 Hh HP) as (A & T & w & HA & HT & E). destruct (MM _ _ _ E) as (v1 & v & E1 & E2 & E3). exists A, T, v, w. split; auto. split; auto. split; auto.
    assert (M1 : mred True hval st v1). { apply (R3 True A T (tang (signed d A) T, signed d A) v1); auto. split; cbn [fst snd]; auto. }
    destruct st2. apply (R4 True (A, T, v1) rest (A, T, v)); cbn [fst snd]; auto; [apply F2_refl|rewrite ofold_iters, E2; reflexivity].
  - auto.
  - intros e o _ [[[[[HP R1] R2] R3] R4] _] R5 h A T w HA HT E. destruct (MM _ _ _ E) as (v1 & v & E1 & E2 & E3).
    assert (M1 : mred h e st v1). { apply (R3 h A T (tang (signed d A) T, signed d A) v1); auto. split; cbn [fst snd]; auto. }
    eapply R5; [exact HA|exact HT| |exact E3]. destruct st2. apply (R4 h (A, T, v1) rest (A, T, v)); cbn [fst snd]; auto; [apply F2_refl|rewrite ofold_iters, E2; reflexivity].
  - intros o _. apply incl_appl, incl_refl.
Qed.
End Pair.
