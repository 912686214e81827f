(** The product of Miller loops (Pairing.v) on the values its arguments stand for. *)
From Coq Require Import ZArith NArith Znumtheory Lia List Bool Ring.
From Verif Require Import Field Spec Context ContextProofs Utils Logic Gate GateProofs ChainProofs IPProofs BitProofs PowProofs IPComp Derived
  Range RangeProofs RangeProofs2 RangeProofs3 RegionGets Calc CalcH RegionPrev RegionLast BigPrims BigNum BigInt BigSpec BigOps BigSel BigCmp BigSub BigCarry BigMod BigCrtNum BigCrt FpChip FpProofs FpProofs2 FpProofs3 FpField FpField2 FpField3 FieldExt ExtSpec ExtSpec2 ExtProofs ExtProofs2 ExtProofs3 ExtProofs4 ExtProofs5 FinalExp GaussOps RingPow CycSpec FrobSpec Cyclo FinalProofs FinalProofs2 FinalProofs3 FinalHigh Ecc MillerSpec Pairing PairOps PairOps2 PairOps3 PairOps4.
Import ListNotations.
Local Open Scope Z_scope.

Section Pair.
Context {p : positive}.
Notation Fp := (F p).
Notation AV := (AV p).
Notation crt := (crt p).
Notation vec := (list crt).
Variables (lb : nat) (m : positive).
Notation env := (env (p:=p)).
Notation hcalc := (hcalc lb).
Hypothesis Hp : prime (Z.pos p).
Hypothesis Hlb : (1 <= lb < 64)%nat.
Hypothesis Hlb2 : (2 * lb <= CAPACITY p)%nat.
Hypothesis Hm : 1 < Z.pos m.
Add Ring Fring : (F_ring p) (morphism (F_morph p), constants [Fcst]).
Add Ring Fringm : (F_ring m) (morphism (F_morph m), constants [Fcst]).
Add Ring X2ringd : (x2_ring (m:=m)).
Variables (ch : fpchip p) (n k : nat).
Hypothesis HN : fpchip_new m n k = Some ch.
Hypothesis HK : fp_params (p:=p) lb m n k.
Notation mz := (Z.pos m).
Notation Fm := (F m).
Notation M2 := (2 ^ Z.of_nat (bits mz)).
Notation W := (2 ^ Z.of_nat (n * k + NUM_BITS p)).
Notation frep := (frep (p:=p) m n).
Notation fred := (fred (p:=p) m n).
Notation isk := (isk k).
Notation lg := (log2_ceil (Z.of_nat k)).
Notation islk := (islk k).
Notation room := (room (p:=p) lb n k).
Notation visk := (visk k).
Notation vism := (vism n k).
Notation vrep := (vrep m n).
Notation vred := (vred m n).
Notation red2 := (red2 (p:=p) m n).
Notation of2 := (of2 m).
Notation zv := (zv n).
Variable (xi0 : Z).
Hypothesis Hxi1 : 1 <= Z.abs xi0.
Notation lx := (Nat.max (log2_ceil (Z.abs xi0)) (log2_ceil (Z.abs (xi0 + 1)))).
Hypothesis Hxi : - 2 ^ 63 < xi0 < 2 ^ 63 - 1.
Hypothesis Hroom : room (lg + n + n + 9 + lx + 1).
Hypothesis HB : 8 * ((12 * Z.abs xi0 + 12) * (M2 * M2) + 2 * M2) < W.
Notation xi := (xi (m:=m) xi0).

Notation Q_add := (q_add lb m Hlb Hlb2 n k).
Notation Q_sub := (q_sub lb m Hlb Hlb2 n k).
Notation Q_smul := (q_smul lb m Hlb Hlb2 n k).
Notation Q_smul_add := (q_smul_add lb m Hlb Hlb2 n k).
Notation Q_mul := (q_mul lb m Hp Hlb Hlb2 Hm ch n k HN HK).
Notation Q_w6 := (q_w6 lb m Hlb Hlb2 n k).
Notation Q_select := (q_select lb m Hp Hlb Hlb2 n k).
Notation Q_carry := (q_carry lb m Hp Hlb Hlb2 Hm ch n k HN HK).
Notation Q_divide := (q_divide lb m Hp Hlb Hlb2 Hm ch n k HN HK).
Notation Q_plus_one := (q_plus_one lb m Hlb Hlb2 ch n k HN HK).

Ltac inc1 := first [ assumption | apply incl_refl | (apply incl_appl; inc1) | (apply incl_appr; inc1) ].
Ltac inc := cbn [app]; first [ assumption | (unfold cpre, vpre; inc1) | (eapply cpre_incl; [eassumption|inc1]) | (eapply vpre_incl; [eassumption|inc1]) ].
Tactic Notation "qb" uconstr(lem) := eapply h_bind; [eapply lem; try inc; try eassumption; try lia|]; cbv beta; [..|let c := fresh "c" in let L := fresh "Lc" in let K := fresh "K" in intros c [L K]; cbn [app]].
Ltac zf1 :=
  match goal with
  | H : _ /\ _ |- _ => lazymatch type of H with (_ <= _ < _)%nat => fail | (_ <= _ < _)%Z => fail | _ => destruct H end
  | H : forall h x y, zv h ?e ?a x -> zv h ?e ?b y -> zv h ?e ?c _, A : zv ?h ?e ?a ?x, B : zv ?h ?e ?b ?y |- _ => specialize (H h x y A B); cbv beta in H
  | H : forall h x y, zv h ?e ?a x -> zv h ?e ?a y -> zv h ?e ?c _, A : zv ?h ?e ?a ?x |- _ => specialize (H h x x A A); cbv beta in H
  | H : forall h x, zv h ?e ?a x -> zv h ?e ?c _, A : zv ?h ?e ?a ?x |- _ => specialize (H h x A); cbv beta in H
  end.
Declare Scope x2_scope.
Notation "a + b" := (x2_add a b) : x2_scope.
Notation "a - b" := (x2_sub a b) : x2_scope.
Notation "a * b" := (x2_mul a b) : x2_scope.
Delimit Scope x2_scope with X.
Notation two := (x2_add (x2_1 (m:=m)) x2_1).
Notation three := (x2_add (x2_add (x2_1 (m:=m)) x2_1) x2_1).

Notation reds := (reds (p:=p) m n).
Notation viss := (viss (p:=p) n k).
Notation prs x := [fst (x : x2 m); snd (x : x2 m)].


Variables (hint2 hint12 : list Fm -> list Fm -> list Fm) (ftab : list (x2 m)).
Hypothesis Hmp : prime (Z.pos m).
Hypothesis H3 : Z.pos m mod 4 = 3.
Hypothesis H6 : Z.pos m mod 6 = 1.
Hypothesis Htab : forall j, (j < 12)%nat -> nth_error ftab j = Some (gam (m:=m) xi0 j).
Hypothesis Hz6 : primitive6 (m:=m) xi0.
Notation q := (N.pos m).
Notation w6 := (w6 (m:=m)).
Notation wmul := (w6_mul (m:=m) xi0).
Notation pw := (npow (w6_1 (m:=m)) wmul).
Notation WR := (w6_ring (m:=m) xi0).
Notation cyc := (cyc (m:=m) xi0).
Add Ring W6ringh : WR.
Notation wred := (wred m n).
Notation ok12 := (ok12 n k).
Notation unit12 := (unit12 m xi0).
Hypothesis Hh2 : forall x y : x2 m, hint2 (prs x) (prs y) = prs (x2_mul x (x2_inv y)).
Notation SZ := (SZ m n).
Notation SR := (SR m n).
Notation SF := (SF m n).
Notation S_SZ := (SR_SZ lb m Hlb Hlb2 n).
Notation S_add := (s_add lb m Hlb Hlb2 n k xi0 HB).
Notation S_mul := (s_mul lb m Hp Hlb Hlb2 Hm ch n k HN HK).
Notation S_w6 := (s_w6 lb m Hlb Hlb2 n k xi0 Hxi1 Hxi HB).
Notation S_carry := (s_carry lb m Hp Hlb Hlb2 Hm ch n k HN HK xi0 Hroom HB).
Notation g2pt := (g2pt p).
Notation ecpt := (ecpt p).
Notation pt2 := (pt2 (m:=m)).
Notation gred := (gred m n).
Notation okg := (okg n k).
Notation pred1 := (pred1 m n).
Notation okp := (okp n k).
Notation sred := (sred m n).
Notation oval := (oval m n).
Notation oks6 := (oks6 n k).
Notation okc := (okc n k).
Notation w6_nth := (w6_nth m).
Notation chord A B T := (chord_at xi0 (twist xi0 A) (twist xi0 B) (embed T)).
Notation tang A T := (tangent_at xi0 (twist xi0 A) (embed T)).
Notation st12 := (w6 * pt2)%type.
Notation okcs := (okcs n k).
Notation cred := (cred m n xi0).
Notation nrel := (nrel m n).
Notation sdigit := (sdigit m xi0).
Notation W_lue := (W_line_unequal lb m Hp Hlb Hlb2 Hm ch n k HN HK xi0 Hxi1 Hxi Hroom HB).
Notation W_leq := (W_line_equal lb m Hp Hlb Hlb2 Hm ch n k HN HK xi0 Hxi1 Hxi Hroom HB).
Notation W_fin := (W_end lb m Hp Hlb Hlb2 Hm ch n k HN HK xi0 Hxi1 Hxi Hroom HB hint2 Hmp H3 Hh2).
Notation L_eq := (L_equal lb m Hp Hlb Hlb2 Hm ch n k HN HK xi0 Hxi1 Hxi Hroom HB).
Notation G_neg := (G_negate lb m Hp Hlb Hlb2 Hm ch n k HN HK).
Notation G_dbl := (G_double lb m Hp Hlb Hlb2 Hm ch n k HN HK xi0 Hxi Hroom HB hint2 Hmp H3 H6 Hh2).
Notation G_ad := (G_add lb m Hp Hlb Hlb2 Hm ch n k HN HK xi0 Hxi Hroom HB hint2 Hmp H3 Hh2).
Notation W_12 := (W_to12 lb m Hp Hlb Hlb2 Hm ch n k HN HK xi0 HB).
Notation W_ld := (W_load lb m Hp Hlb Hlb2 Hm ch n k HN HK xi0 HB ftab Htab).
Notation mentry := (mentry (p:=p)).

Fixpoint oall {X Y} (g : X -> option Y) (l : list X) : option (list Y) := match l with [] => Some [] | x :: l => match g x, oall g l with Some y, Some ys => Some (y :: ys) | _, _ => None end end.
Lemma oall_cons {X Y} (g : X -> option Y) x l r : oall g (x :: l) = Some r -> exists y ys, g x = Some y /\ oall g l = Some ys /\ r = y :: ys.
Proof. cbn [oall]. destruct (g x); [|discriminate]. destruct (oall g l); [|discriminate]. intros [= <-]. eauto. Qed.
Lemma oall_in {X Y} (g : X -> option Y) l : forall r, oall g l = Some r -> forall x, In x l -> exists y, g x = Some y.
Proof. induction l as [|a l IH]; intros r E x; [intros []|]. apply oall_cons in E as (y & ys & E1 & E2 & _). intros [<-|Hx]; eauto. Qed.
Lemma oall_map {X Y Z0} (f : X -> Y) (g : Y -> option Z0) l : oall g (map f l) = oall (fun x => g (f x)) l.
Proof. induction l as [|a l IH]; [reflexivity|]. cbn [map oall]. now rewrite IH. Qed.
Lemma oall_ext {X Y} (f g : X -> option Y) l : (forall x, f x = g x) -> oall f l = oall g l.
Proof. intros E. induction l as [|a l IH]; [reflexivity|]. cbn [oall]. now rewrite IH, E. Qed.
Lemma ofold_oall {X D} (g : X -> D -> option X) ds : forall mv mw, oall (fun v => ofold g ds v) mv = Some mw -> ofold (fun mv d => oall (fun v => g v d) mv) ds mv = Some mw.
Proof.
  induction ds as [|d ds IH]; intros mv mw E; cbn [ofold] in *.
  - f_equal. revert mw E. induction mv as [|x l IHl]; intros mw E; [now injection E|]. apply oall_cons in E as (y & ys & [= <-] & E2 & ->). f_equal. auto.
  - assert (S : exists mu, oall (fun v => g v d) mv = Some mu /\ oall (fun v => ofold g ds v) mu = Some mw).
    { clear IH. revert mw E. induction mv as [|x l IHl]; intros mw E; [injection E as <-; exists []; auto|]. apply oall_cons in E as (y & ys & E1 & E2 & ->). destruct (IHl _ E2) as (mu & M1 & M2'). destruct (g x d) as [x'|] eqn:Eg; [|discriminate].
      exists (x' :: mu). cbn [oall]. rewrite Eg, M1, E1, M2'. auto. }
    destruct S as (mu & -> & S2). auto.
Qed.
Definition prodw (l : list w6) : w6 := fold_right wmul w6_1 l.
Notation TA := ((Fm * Fm) * pt2)%type.
Notation MV := (((Fm * Fm) * pt2) * st12)%type.
Definition xs (mv : list MV) : list w6 := map (fun v => fst (snd v)) mv.
Definition bs (mv : list MV) : list pt2 := map (fun v => snd (snd v)) mv.
Definition lift_v (ta : TA) (o : option st12) : option MV := match o with None => None | Some s => Some (ta, s) end.
Definition dg (d : Z) (v : MV) : option MV := lift_v (fst v) (sdigit (snd (fst v)) (fst (fst v)) (snd v) d).
Definition it (v : MV) (d : Z) : option MV := lift_v (fst v) (miller_iter xi0 (snd (fst v)) (fst (fst v)) (snd v) d).
Definition fin (v : MV) : option w6 := miller_final xi0 (snd (fst v)) (fst (fst v)) (snd v).
Definition sqt (v : MV) : MV := (fst v, (wmul (wmul (fst (snd v)) (fst (snd v))) (tang (snd (snd v)) (fst (fst v))), snd (snd v))).
Lemma it_dg v d : it v d = dg d (sqt v). Proof. destruct v as [[T A] [x B]]. unfold it, dg, sqt. cbn [fst snd]. now rewrite iter_digit. Qed.
Lemma it_iters (ta : TA) ds : forall s, ofold it ds (ta, s) = lift_v ta (miller_iters xi0 (snd ta) (fst ta) s ds).
Proof. induction ds as [|d ds IH]; intros s; [reflexivity|]. cbn [ofold miller_iters]. unfold it at 1. cbn [fst snd]. destruct (miller_iter xi0 (snd ta) (fst ta) s d) as [w|]; cbn [lift_v]; auto. Qed.
Definition init (ta : TA) : MV := (ta, (tang (snd ta) (fst ta), snd ta)).
Lemma millers_split (d1 : Z) (rest : list Z) : forall pv w, millers xi0 pv (1 :: d1 :: rest) = Some w -> exists mv1 mv ws, oall (dg d1) (map init pv) = Some mv1 /\ oall (fun v => ofold it rest v) mv1 = Some mv /\ oall fin mv = Some ws /\ w = prodw ws.
Proof.
  induction pv as [|[T A] pv IH]; intros w E; cbn [millers] in E.
  - injection E as <-. exists [], [], []. auto.
  - destruct (miller xi0 A T (1 :: d1 :: rest)) as [f|] eqn:E1; [|discriminate]. destruct (millers xi0 pv (1 :: d1 :: rest)) as [g|]; [|discriminate]. injection E as <-. destruct (IH g eq_refl) as (mv1 & mv & ws & M1 & M2' & M3 & ->). clear IH.
    cbn [miller miller_iters] in E1. unfold signed in E1 at 1. cbn [Z.eqb Pos.eqb] in E1. rewrite iter_digit, one_sq in E1. destruct (sdigit A T (tang A T, A) d1) as [v1|] eqn:S1; [|discriminate]. destruct (miller_iters xi0 A T v1 rest) as [v|] eqn:S2; [|discriminate].
    exists (((T, A), v1) :: mv1), (((T, A), v) :: mv), (f :: ws). cbn [map oall]. change (dg d1 (init (T, A))) with (lift_v (T, A) (sdigit A T (tang A T, A) d1)). rewrite S1. cbn [lift_v]. rewrite M1, it_iters. cbn [fst snd]. rewrite S2. cbn [lift_v]. rewrite M2'. change (fin (T, A, v)) with (miller_final xi0 A T v). rewrite E1, M3. auto.
Qed.
(** ** Entries *)
Definition erel (h : Prop) (e : env) (en : mentry) (ta : TA) : Prop := pred1 h e (fst (fst en)) (fst ta) /\ gred h e (snd (fst en)) (snd ta).
Definition oke (en : mentry) : Prop := okp (fst (fst en)) /\ okg (snd (fst en)) /\ okg (snd en).
Definition ecells (en : mentry) : list AV := pcells (fst (fst en)) ++ gcells (snd (fst en)) ++ gcells (snd en).
Definition stc (st : vec * list g2pt) : list AV := vcells (fst st) ++ flat_map gcells (snd st).
Definition RV (h : Prop) (e : env) (re : g2pt * mentry) (v : TA * pt2) : Prop := gred h e (fst re) (snd v) /\ erel h e (snd re) (fst v).
Definition rcells (re : g2pt * mentry) : list AV := gcells (fst re) ++ ecells (snd re).
Lemma rcells_in L rs es : (forall r, In r rs -> incl (gcells r) L) -> (forall en, In en es -> incl (ecells en) L) -> forall re, In re (combine rs es) -> incl (rcells re) L.
Proof. intros H1 H2 [r en] H. unfold rcells. cbn [fst snd]. apply incl_app; [eapply H1, in_combine_l; eauto|eapply H2, in_combine_r; eauto]. Qed.
(** the three inner loops, on values *)
Definition sv_eq (u : w6) (v : TA * pt2) : option w6 := Some (wmul u (tang (snd v) (fst (fst v)))).
Definition sv_ue (d : Z) (s : w6 * list pt2) (v : TA * pt2) : option (w6 * list pt2) :=
  match pt_add (snd v) (signed d (snd (fst v))) with None => None | Some C => Some (wmul (fst s) (chord (snd v) (signed d (snd (fst v))) (fst (fst v))), snd s ++ [C]) end.
Definition sv_fin (u : w6) (v : TA * pt2) : option w6 := miller_final xi0 (snd (fst v)) (fst (fst v)) (u, snd v).
Section Values.
Variables (h : Prop) (e : env).
Lemma eq_fold : forall rs (es : list mentry) mv, Forall2 (fun r (v : MV) => gred h e r (snd (snd v))) rs mv -> Forall2 (fun en (v : MV) => erel h e en (fst v)) es mv ->
  exists vas c, Forall2 (RV h e) (combine rs es) vas /\ prodw (xs (map sqt mv)) = wmul (wmul (prodw (xs mv)) (prodw (xs mv))) c /\ (forall u, ofold sv_eq vas u = Some (wmul u c)) /\ c = prodw (map (fun v : MV => tang (snd (snd v)) (fst (fst v))) mv).
Proof.
  intros rs es mv. revert rs es. induction mv as [|v mv IH]; intros rs es H1 H2; inversion H1; inversion H2; subst; cbn [combine].
  - exists [], w6_1. split; [constructor|]. split; [cbn [xs map prodw fold_right]; ring|]. split; [|reflexivity]. intros u. cbn [ofold]. f_equal. ring.
  - destruct (IH _ _ H7 H12) as (vas & c & F & E & O & Ec). exists ((fst v, snd (snd v)) :: vas), (wmul (tang (snd (snd v)) (fst (fst v))) c). split; [constructor; auto; split; auto|]. split; [|split].
    + cbn [xs map prodw fold_right]. unfold xs, prodw in E. rewrite E. unfold sqt. cbn [fst snd]. fold (prodw (map (fun v0 : MV => fst (snd v0)) mv)). ring.
    + intros u. cbn [ofold sv_eq fst snd]. rewrite O. f_equal. ring.
    + cbn [map prodw fold_right]. now rewrite Ec.
Qed.
Lemma dg_nz d (v w : MV) : d <> 0 -> dg d v = Some w -> exists S C, pt_dbl (snd (snd v)) = Some S /\ pt_add S (signed d (snd (fst v))) = Some C /\ w = (fst v, (wmul (fst (snd v)) (chord S (signed d (snd (fst v))) (fst (fst v))), C)).
Proof.
  intros D E. destruct v as [[T A] [x B]]. unfold dg, PairOps3.sdigit in E. cbn [fst snd] in *. destruct (pt_dbl B) as [S|]; [|discriminate]. destruct (Z.eqb_spec d 0); [contradiction|]. unfold miller_add in E. destruct (pt_add S (signed d A)) as [C|] eqn:EC; [|discriminate]. cbn [lift_v] in E. injection E as <-. exists S, C. auto.
Qed.
Lemma ue_fold d : d <> 0 -> forall rs (es : list mentry) mv mw, oall (dg d) mv = Some mw -> Forall2 (fun r (v : MV) => forall S, pt_dbl (snd (snd v)) = Some S -> gred h e r S) rs mv -> Forall2 (fun en (v : MV) => erel h e en (fst v)) es mv ->
  exists vas c, Forall2 (RV h e) (combine rs es) vas /\ prodw (xs mw) = wmul (prodw (xs mv)) c /\ map fst mw = map fst mv /\ (forall u outs, ofold (sv_ue d) vas (u, outs) = Some (wmul u c, outs ++ bs mw)).
Proof.
  intros D rs es mv. revert rs es. induction mv as [|v mv IH]; intros rs es mw Eo H1 H2; inversion H1; inversion H2; subst; cbn [combine].
  - injection Eo as <-. exists [], w6_1. split; [constructor|]. split; [cbn [xs map prodw fold_right]; ring|]. split; auto. intros u outs. cbn [ofold bs map]. rewrite app_nil_r. f_equal. f_equal. ring.
  - apply oall_cons in Eo as (w & mw' & E1 & E2 & ->). destruct (IH _ _ _ E2 H7 H12) as (vas & c & F & E & Ef & O). destruct (dg_nz d v w D E1) as (S & C & ES & EC & ->).
    exists ((fst v, S) :: vas), (wmul (chord S (signed d (snd (fst v))) (fst (fst v))) c). split; [constructor; auto; split; auto|]. split; [|split].
    + cbn [xs map prodw fold_right fst snd]. unfold xs, prodw in E. rewrite E. fold (prodw (map (fun v0 : MV => fst (snd v0)) mv)). ring.
    + cbn [map fst]. now rewrite Ef.
    + intros u outs. cbn [ofold]. unfold sv_ue at 1. cbn [fst snd]. rewrite EC. rewrite O. f_equal. cbn [bs map snd]. rewrite <- app_assoc. cbn [app]. f_equal. ring.
Qed.
Lemma fin_fold : forall rs (es : list mentry) mv ws, oall fin mv = Some ws -> Forall2 (fun r (v : MV) => gred h e r (snd (snd v))) rs mv -> Forall2 (fun en (v : MV) => erel h e en (fst v)) es mv ->
  exists vas c, Forall2 (RV h e) (combine rs es) vas /\ prodw ws = wmul (prodw (xs mv)) c /\ (forall u, ofold sv_fin vas u = Some (wmul u c)).
Proof.
  intros rs es mv. revert rs es. induction mv as [|v mv IH]; intros rs es ws Eo H1 H2; inversion H1; inversion H2; subst; cbn [combine].
  - injection Eo as <-. exists [], w6_1. split; [constructor|]. split; [cbn [xs map prodw fold_right]; ring|]. intros u. cbn [ofold]. f_equal. ring.
  - apply oall_cons in Eo as (w & ws' & E1 & E2 & ->). destruct (IH _ _ _ E2 H7 H12) as (vas & c & F & E & O). destruct v as [[T A] [xv B]]. unfold fin, miller_final, miller_add in E1. cbn [fst snd] in *. destruct (pt_add B (pt_frob xi0 A)) as [C|] eqn:EC; [|discriminate]. injection E1 as <-.
    exists (((T, A), B) :: vas), (wmul (wmul (chord B (pt_frob xi0 A) T) (chord C (pt_neg (pt_frob xi0 (pt_frob xi0 A))) T)) c). split; [constructor; auto; split; auto|]. split.
    + cbn [xs map prodw fold_right fst snd]. unfold xs, prodw in E. rewrite E. fold (prodw (map (fun v0 : MV => fst (snd v0)) mv)). ring.
    + intros u. cbn [ofold]. unfold sv_fin at 1, miller_final, miller_add. cbn [fst snd]. rewrite EC, O. f_equal. ring.
Qed.
End Values.
(** ** The circuit *)
Definition rb (es : list mentry) (h : Prop) (e : env) (st : vec * list g2pt) (mv : list MV) : Prop :=
  wred h e (fst st) (prodw (xs mv)) /\ Forall2 (fun r (v : MV) => gred h e r (snd (snd v))) (snd st) mv /\ Forall2 (fun en (v : MV) => erel h e en (fst v)) es mv.
Definition okst (st : vec * list g2pt) : Prop := ok12 (fst st) /\ Forall okg (snd st).
Definition ninv (es : list mentry) (e : env) : Prop := forall en, In en es -> nrel (snd (fst en)) (snd en) e.
Lemma F2_in_ex {A B} (R : A -> B -> Prop) l l' a : Forall2 R l l' -> In a l -> exists b, In b l' /\ R a b.
Proof. induction 1 as [|x y l l' H F IH]; [intros []|]. intros [<-|Hx]; [exists y; split; auto; now left|]. destruct (IH Hx) as (b & ? & ?). exists b. split; auto. now right. Qed.
Lemma F2_map_fst {A B C} (R : A -> B -> Prop) (l : list A) (mv mw : list (B * C)) : Forall2 (fun a v => R a (fst v)) l mv -> map fst mw = map fst mv -> Forall2 (fun a v => R a (fst v)) l mw.
Proof. intros F. revert mw. induction F as [|a v l mv H F IH]; intros mw E; destruct mw as [|w mw]; cbn [map] in E; try discriminate; constructor; auto; [injection E as -> _; auto|injection E as _ E; auto]. Qed.
Section Multi.
Variables (Hon : Prop) (es : list mentry).
Hypothesis Kes : Forall oke es.
Lemma ke en : In en es -> oke en. Proof. rewrite Forall_forall in Kes. auto. Qed.
Lemma F_comb (rs : list g2pt) : Forall okg rs -> Forall (fun re : g2pt * mentry => okg (fst re) /\ In (snd re) es) (combine rs es).
Proof. intros F. apply Forall_forall. intros [r en] H. cbn [fst snd]. split; [|eapply in_combine_r; eauto]. rewrite Forall_forall in F. eapply F, in_combine_l; eauto. Qed.
Lemma W_lines L (Pre : env -> Prop) (f : vec) (rs : list g2pt) : (forall en, In en es -> incl (ecells en) L) -> vpre L f -> (forall r, In r rs -> incl (gcells r) L) -> ok12 f -> Forall okg rs ->
  (Hon -> Pre hval -> exists u vas, wred True hval f u /\ Forall2 (RV True hval) (combine rs es) vas) ->
  hcalc L Pre Hon (multi_lines_equal lb ch xi0 f rs es) ok12 (fun e o => forall h u vas w, wred h e f u -> Forall2 (RV h e) (combine rs es) vas -> ofold sv_eq vas u = Some w -> wred h e o w) vcells.
Proof.
  intros CE Cf CR Kf KR HH. unfold multi_lines_equal.
  eapply (h_fold_rel lb Hon L (fun _ => True) _ (fun re => okg (fst re) /\ In (snd re) es) ok12 rcells vcells RV (fun h e f u => wred h e f u) sv_eq); auto.
  - intros L' Pre' b re HL _ HA HC [K1 K2] Kb HV. destruct (ke _ K2) as (Q1 & Q2 & Q3).
    eapply h_post; [eapply (W_leq L' Pre' Hon b (fst re) (fst (fst (snd re)))); auto| | |]; cbv beta.
    + eapply incl_tran; [|exact HA]. unfold rcells. inc1.
    + eapply incl_tran; [|exact HA]. unfold rcells, ecells. inc1.
    + intros Hh HP. destruct (HV Hh HP) as (u & va & w & Hu & [G1 [G2 G3]] & _). exists u, (snd va), (fst (fst va)). cbv beta in Hu. auto.
    + auto.
    + intros e o _ _ RR h u va w Hu [G1 [G2 G3]] [= <-]. auto.
    + intros o _. apply incl_appl, incl_refl.
  - apply incl_refl.
  - apply rcells_in; auto.
  - now apply F_comb.
  - intros Hh HP. destruct (HH Hh HP) as (u & vas & Hu & F). assert (E : exists w, ofold sv_eq vas u = Some w). { clear. revert u. induction vas as [|v vas IH]; intros u; cbn [ofold]; [eauto|]. unfold sv_eq at 1. apply IH. } destruct E as (w & E). exists u, vas, w. auto.
Qed.
Lemma dbl_of_dg d (v w : MV) : dg d v = Some w -> exists S, pt_dbl (snd (snd v)) = Some S.
Proof. destruct v as [[T A] [x B]]. unfold dg, PairOps3.sdigit. cbn [fst snd]. destruct (pt_dbl B); [eauto|discriminate]. Qed.
Lemma W_mdigit L (Pre : env -> Prop) (f : vec) (rs : list g2pt) d : (forall e, Pre e -> ninv es e) -> (forall en, In en es -> incl (ecells en) L) -> vpre L f -> (forall r, In r rs -> incl (gcells r) L) -> okst (f, rs) ->
  (Hon -> dig_ok d) -> (Hon -> Pre hval -> exists mv mw, rb es True hval (f, rs) mv /\ oall (dg d) mv = Some mw) ->
  hcalc L Pre Hon (multi_digit lb m ch xi0 hint2 es (f, rs) d) (okst) (fun e o => forall h mv mw, rb es h e (f, rs) mv -> oall (dg d) mv = Some mw -> rb es h e o mw) stc.
Proof.
  intros HI CE Cf CR (Kf & KR) Hd HH. cbn [fst snd] in *. unfold multi_digit, multi_double.
  eapply h_bind.
  { apply (h_mapM lb L Pre Hon (g2_double lb m ch hint2) (fun _ o => okg o) (fun e r o => forall h (B S : pt2), gred h e r B -> pt_dbl B = Some S -> gred h e o S) gcells).
    intros r Hr. rewrite Forall_forall in KR. apply (G_dbl L Pre Hon r (CR r Hr) (KR r Hr)).
    intros Hh HP. destruct (HH Hh HP) as (mv & mw & (_ & F & _) & E). cbn [fst snd] in F. destruct (F2_in_ex _ _ _ _ F Hr) as (v & Hv & G). destruct (oall_in _ _ _ E v Hv) as (w & Ew). destruct (dbl_of_dg _ _ _ Ew) as (S & ES). eauto. }
  cbv beta. intros rs2 F2. assert (K2 : Forall okg rs2) by (clear - F2; induction F2; constructor; auto).
  assert (CR2 : forall r, In r rs2 -> incl (gcells r) (flat_map gcells rs2)). { intros r Hr x Hx. apply in_flat_map. eauto. }
  eapply h_assert_bind. { intros Hh _. destruct (Hd Hh). apply andb_true_iff. split; apply Z.leb_le; lia. } intros Hdd. apply andb_true_iff in Hdd as [D1 D2]. apply Z.leb_le in D1, D2.
  assert (DBL : forall e h mv, Forall2 (fun r o => forall h (B S : pt2), gred h e r B -> pt_dbl B = Some S -> gred h e o S) rs rs2 -> Forall2 (fun r (v : MV) => gred h e r (snd (snd v))) rs mv -> Forall2 (fun r (v : MV) => forall S, pt_dbl (snd (snd v)) = Some S -> gred h e r S) rs2 mv).
  { clear. intros e h mv F1. revert mv. induction F1 as [|r o rs rs2 H F IH]; intros mv G; inversion G; subst; constructor; eauto. }
  destruct (Z.eqb_spec d 0) as [D0|D0].
  - apply h_ret; [split; auto|unfold stc; cbn [fst snd]; apply incl_app; [inc|inc1]|].
    intros e [HP RR] h mv mw (Hu & F & FE) E. cbn [fst snd] in *. pose proof (DBL _ _ _ RR F) as DF. clear - DF FE E D0 Hu. subst d.
    assert (X : xs mw = xs mv /\ map fst mw = map fst mv /\ Forall2 (fun v w : MV => pt_dbl (snd (snd v)) = Some (snd (snd w))) mv mw).
    { clear - E. revert mw E. induction mv as [|v mv IH]; intros mw E; [injection E as <-; auto|]. apply oall_cons in E as (w & ws & E1 & E2 & ->). destruct (IH _ E2) as (X1 & X2 & X3). destruct v as [[T A] [x B]]. unfold dg, PairOps3.sdigit in E1. cbn [fst snd] in *. destruct (pt_dbl B) as [S|] eqn:ES; [|discriminate]. cbn [Z.eqb lift_v] in E1. injection E1 as <-.
      unfold xs in *. cbn [map fst snd]. rewrite X1, X2. auto. }
    destruct X as (X1 & X2 & X3). split; cbn [fst snd]; [now rewrite X1|]. split; [|eapply F2_map_fst; eauto]. clear - DF X3. revert rs2 DF. induction X3 as [|v w mv mw H F IH]; intros rs2 DF; inversion DF; subst; constructor; auto.
  - eapply h_post.
    { eapply (h_fold_rel lb Hon (flat_map gcells rs2 ++ L) (ninv es) _ (fun re => okg (fst re) /\ In (snd re) es) (fun s : vec * list g2pt => ok12 (fst s) /\ Forall okg (snd s)) rcells stc RV (fun h e s (v : w6 * list pt2) => wred h e (fst s) (fst v) /\ Forall2 (gred h e) (snd s) (snd v)) (sv_ue d)
         ) with (l := combine rs2 es) (b := (f, [])).
      - intros L' Pre' [f' out] [r [[a b] nb]] HL HI' HA HC [K1 K2'] [Kf' Kout] HV. cbn [fst snd] in *. destruct (ke _ K2') as (Q1 & Q2 & Q3). cbn [fst snd] in *. cbv zeta. set (S := if Z.eqb d 1 then b else nb).
        assert (KS : okg S) by (unfold S; destruct (Z.eqb d 1); auto).
        assert (Cr : incl (gcells r) L') by (eapply incl_tran; [|exact HA]; unfold rcells; cbn [fst snd]; inc1).
        assert (Ca : incl (pcells a) L') by (eapply incl_tran; [|exact HA]; unfold rcells, ecells; cbn [fst snd]; inc1).
        assert (CS : incl (gcells S) L') by (eapply incl_tran; [|exact HA]; unfold rcells, ecells, S; cbn [fst snd]; destruct (Z.eqb d 1); inc1).
        assert (Cf' : vpre L' f') by (eapply incl_tran; [|exact HC]; unfold stc; cbn [fst snd]; inc1).
        assert (Co : incl (flat_map gcells out) L') by (eapply incl_tran; [|exact HC]; unfold stc; cbn [fst snd]; inc1).
        assert (RS : forall e, Pre' e -> forall h (A : pt2), gred h e b A -> gred h e S (signed d A)). { intros e HP h A HA'. unfold S, signed. destruct (Z.eqb d 1); [auto|]. exact (HI' e HP _ K2' h A HA'). }
        eapply h_bind; [eapply (W_lue L' Pre' Hon f' r S a); auto|]; cbv beta.
        { intros Hh HP. destruct (HV Hh HP) as ([u outs] & [[T A] BB] & w & [Hu _] & [G1 [G2 G3]] & _). cbn [fst snd] in *. exists u, BB, (signed d A), T. auto. }
        intros f3 Kf3.
        eapply h_bind; [eapply (G_ad _ _ Hon r S); auto; try inc1|]; cbv beta.
        { intros Hh [HP _]. destruct (HV Hh HP) as ([u outs] & [[T A] BB] & w & [Hu _] & [G1 [G2 G3]] & E). unfold sv_ue in E. cbn [fst snd] in *. destruct (pt_add BB (signed d A)) as [C|] eqn:EC; [|discriminate]. exists BB, (signed d A), C. auto. }
        intros r3 Kr3. cbn [app].
        apply h_ret.
        + cbn [fst snd]. split; auto. apply Forall_app. split; auto.
        + unfold stc. cbn [fst snd]. rewrite flat_map_app. cbn [flat_map]. rewrite app_nil_r. repeat apply incl_app; inc1.
        + intros e [[HP R1] R2] h [u outs] [[T A] BB] w [Hu Ho] [G1 [G2 G3]] E. unfold sv_ue in E. cbn [fst snd] in *. destruct (pt_add BB (signed d A)) as [C|] eqn:EC; [|discriminate]. injection E as <-. cbn [fst snd]. pose proof (RS e HP h A G3) as GS. split; [auto|].
          apply Forall2_app; auto. constructor; [eauto|constructor].
      - apply incl_refl.
      - intros e [HP _]. auto.
      - apply rcells_in; [intros r Hr; apply incl_appl, CR2, Hr|intros en Hen; apply incl_appr, CE, Hen].
      - unfold stc. cbn [fst snd flat_map]. rewrite app_nil_r. inc.
      - now apply F_comb.
      - cbn [fst snd]. split; auto.
      - intros Hh [HP RR]. destruct (HH Hh HP) as (mv & mw & (Hu & F & FE) & E). cbn [fst snd] in *. destruct (ue_fold True hval d D0 _ _ _ _ E (DBL _ _ _ RR F) FE) as (vas & c & V1 & V2 & V3 & V4).
        exists (prodw (xs mv), []), vas, (wmul (prodw (xs mv)) c, [] ++ bs mw). cbn [fst snd]. split; auto. }
    + cbv beta. intros s Hs. exact Hs.
    + cbv beta. intros e [f' out] _ [HP RR] RW h mv mw (Hu & F & FE) E. cbn [fst snd] in *. destruct (ue_fold h e d D0 _ _ _ _ E (DBL _ _ _ RR F) FE) as (vas & c & V1 & V2 & V3 & V4).
      destruct (RW h (prodw (xs mv), []) vas (wmul (prodw (xs mv)) c, [] ++ bs mw)) as [W1 W2]; auto; [cbn [fst snd]; auto|]. cbn [fst snd app] in *. split; cbn [fst snd]; [now rewrite V2|]. split; [|eapply F2_map_fst; eauto].
      clear - W2. unfold bs in W2. revert out W2. induction mw as [|w mw IH]; intros out W2; inversion W2; subst; constructor; auto.
    + intros s _. apply incl_appl, incl_refl.
Qed.
Lemma W_mstep L (Pre : env -> Prop) (f : vec) (rs : list g2pt) d : (forall e, Pre e -> ninv es e) -> (forall en, In en es -> incl (ecells en) L) -> vpre L f -> (forall r, In r rs -> incl (gcells r) L) -> okst (f, rs) ->
  (Hon -> dig_ok d) -> (Hon -> Pre hval -> exists mv mw, rb es True hval (f, rs) mv /\ oall (fun v => it v d) mv = Some mw) ->
  hcalc L Pre Hon (multi_step lb m ch xi0 hint2 es (f, rs) d) okst (fun e o => forall h mv mw, rb es h e (f, rs) mv -> oall (fun v => it v d) mv = Some mw -> rb es h e o mw) stc.
Proof.
  intros HI CE Cf CR (Kf & KR) Hd HH. cbn [fst snd] in *. unfold multi_step.
  assert (SQ : forall mv, oall (fun v => it v d) mv = oall (dg d) (map sqt mv)). { intros mv. rewrite oall_map. apply oall_ext. intros v. apply it_dg. }
  assert (SR' : forall h e mv, Forall2 (fun r (v : MV) => gred h e r (snd (snd v))) rs mv -> Forall2 (fun r (v : MV) => gred h e r (snd (snd v))) rs (map sqt mv)). { clear. intros h e mv F. induction F; cbn [map]; constructor; auto. }
  assert (SE : forall h e mv, Forall2 (fun en (v : MV) => erel h e en (fst v)) es mv -> Forall2 (fun en (v : MV) => erel h e en (fst v)) es (map sqt mv)). { clear. intros h e mv F. induction F; cbn [map]; constructor; auto. }
  eapply h_bind; [apply (W_mul lb m Hp Hlb Hlb2 Hm ch n k HN HK xi0 Hxi1 Hxi Hroom HB L Pre Hon f f Cf Cf Kf Kf)|]; cbv beta.
  { intros Hh HP. destruct (HH Hh HP) as (mv & mw & (Hu & _) & _). cbn [fst snd] in *. eauto. }
  intros f2 Kf2.
  eapply h_bind; [eapply (W_lines _ _ f2 rs); auto|]; cbv beta.
  { intros en Hen. apply incl_appr. auto. }
  { inc. }
  { intros r Hr. apply incl_appr. auto. }
  { intros Hh [HP RM]. destruct (HH Hh HP) as (mv & mw & (Hu & F & FE) & _). cbn [fst snd] in *. destruct (eq_fold True hval _ _ _ F FE) as (vas & c & V1 & _). exists (wmul (prodw (xs mv)) (prodw (xs mv))), vas. auto. }
  intros f3 Kf3. cbn [app].
  assert (ST : forall h e mv, wred h e f3 (prodw (xs (map sqt mv))) -> rb es h e (f, rs) mv -> rb es h e (f3, rs) (map sqt mv)). { intros h e mv H (Hu & F & FE). cbn [fst snd] in *. split; cbn [fst snd]; auto. }
  assert (LN : forall h e mv, (forall h (x y : w6), wred h e f x -> wred h e f y -> wred h e f2 (wmul x y)) -> (forall h u vas w, wred h e f2 u -> Forall2 (RV h e) (combine rs es) vas -> ofold sv_eq vas u = Some w -> wred h e f3 w) -> rb es h e (f, rs) mv -> wred h e f3 (prodw (xs (map sqt mv)))).
  { intros h e mv RM RL (Hu & F & FE). cbn [fst snd] in *. destruct (eq_fold h e _ _ _ F FE) as (vas & c & V1 & V2 & V3 & _). rewrite V2. eapply RL; eauto. }
  eapply h_post; [eapply (W_mdigit _ _ f3 rs d); auto| | |]; cbv beta.
  - intros e [[HP _] _]. auto.
  - intros en Hen. do 2 apply incl_appr. auto.
  - inc.
  - intros r Hr. do 2 apply incl_appr. auto.
  - split; auto.
  - intros Hh [[HP RM] RL]. destruct (HH Hh HP) as (mv & mw & Hrb & E). exists (map sqt mv), mw. rewrite <- SQ. split; auto.
  - auto.
  - intros e o _ [[HP RM] RL] RD h mv mw Hrb E. rewrite SQ in E. eapply RD; [|exact E]. auto.
  - intros o _. apply incl_appl, incl_refl.
Qed.
End Multi.
(** *** The whole loop *)
Lemma F2_consl {A B} (R : A -> B -> Prop) a l l' : Forall2 R (a :: l) l' -> exists y r, l' = y :: r /\ R a y /\ Forall2 R l r.
Proof. intros F. inversion F; subst. eauto. Qed.
Definition prel (h : Prop) (e : env) (ab : ecpt * g2pt) (ta : TA) : Prop := pred1 h e (fst ab) (fst ta) /\ gred h e (snd ab) (snd ta).
Definition okpr (ab : ecpt * g2pt) : Prop := okp (fst ab) /\ okg (snd ab).
Definition prcells (ab : ecpt * g2pt) : list AV := pcells (fst ab) ++ gcells (snd ab).
Lemma init_rb (h : Prop) e pairs nbs pv : length nbs = length pairs -> Forall2 (prel h e) pairs pv ->
  Forall2 (fun r (v : MV) => gred h e r (snd (snd v))) (map snd pairs) (map init pv) /\ Forall2 (fun en (v : MV) => erel h e en (fst v)) (map (fun x : (ecpt * g2pt) * g2pt => (fst (fst x), snd (fst x), snd x)) (combine pairs nbs)) (map init pv).
Proof.
  intros Hl F. revert nbs Hl. induction F as [|ab ta pairs pv [H1 H2] F IH]; intros [|nb nbs] Hl; cbn [length] in Hl; try discriminate; cbn [map combine]; [split; constructor|].
  destruct (IH nbs) as [I1 I2]; [congruence|]. split; constructor; auto. split; auto.
Qed.
Lemma W_multi L (Pre : env -> Prop) (Hon : Prop) (pairs : list (ecpt * g2pt)) (naf : list Z) : (forall ab, In ab pairs -> incl (prcells ab) L) -> Forall okpr pairs ->
  (Hon -> zcap (p:=p) n k) -> (Hon -> Forall dig_ok naf /\ (2 <= length (drop_zeros (rev naf)))%nat /\ hd 0 (drop_zeros (rev naf)) = 1) -> (Hon -> pairs <> []) ->
  (Hon -> Pre hval -> exists pv w, Forall2 (prel True hval) pairs pv /\ millers xi0 pv (drop_zeros (rev naf)) = Some w) ->
  hcalc L Pre Hon (multi_miller_loop_BN lb m ch xi0 ftab hint2 pairs naf) ok12 (fun e o => forall h pv w, Forall2 (prel h e) pairs pv -> millers xi0 pv (drop_zeros (rev naf)) = Some w -> wred h e o w) vcells.
Proof.
  intros CP KP HZ HD HNE HH. unfold multi_miller_loop_BN.
  assert (DD : Hon -> Forall dig_ok (drop_zeros (rev naf))). { intros Hh. destruct (HD Hh) as [D _]. apply Forall_rev in D. revert D. clear. induction (rev naf) as [|d l IH]; intros D; cbn [drop_zeros]; auto. destruct (Z.eqb d 0); auto. inversion D; auto. }
  assert (LL : Hon -> (2 <= length (drop_zeros (rev naf)))%nat) by (intros Hh; apply HD, Hh). assert (H1 : Hon -> hd 0 (drop_zeros (rev naf)) = 1) by (intros Hh; apply HD, Hh). clear HD.
  destruct (drop_zeros (rev naf)) as [|d rest] eqn:ED. { apply h_panic. intros Hh. specialize (LL Hh). cbn [length] in LL. lia. }
  eapply h_assert_bind. { intros Hh _. specialize (H1 Hh). cbn [hd] in H1. now apply Z.eqb_eq. } intros Hd. apply Z.eqb_eq in Hd. subst d. clear H1.
  eapply h_bind.
  { apply (h_mapM lb L Pre Hon (fun ab => g2_negate lb ch (snd ab)) (fun _ o => okg o) (fun e ab o => nrel (snd ab) o e) gcells).
    intros ab Hab. rewrite Forall_forall in KP. apply (G_neg L Pre Hon (snd ab)); auto; [eapply incl_tran; [|exact (CP ab Hab)]; unfold prcells; inc1|apply KP, Hab|].
    intros Hh HP. destruct (HH Hh HP) as (pv & w & F & _). destruct (F2_in_ex _ _ _ _ F Hab) as (v & _ & _ & G). eauto. }
  cbv beta. intros nbs Fn. assert (Ln : length nbs = length pairs) by (symmetry; eapply Forall2_len; eauto). cbv zeta.
  set (es := map (fun x : (ecpt * g2pt) * g2pt => (fst (fst x), snd (fst x), snd x)) (combine pairs nbs)).
  set (L1 := flat_map gcells nbs ++ L). set (P1 := fun e : env => Pre e /\ ninv es e).
  assert (Kes : Forall oke es). { apply Forall_forall. intros en Hen. apply in_map_iff in Hen as ([ab nb] & <- & Hin). cbn [fst snd]. rewrite Forall_forall in KP. destruct (KP _ (in_combine_l _ _ _ _ Hin)). split; auto. split; auto. cbn [snd]. apply in_combine_r in Hin. clear - Fn Hin. induction Fn as [|? ? ? ? ? ? IH]; [destruct Hin|]. destruct Hin as [<-|]; auto. }
  assert (CE : forall en, In en es -> incl (ecells en) L1). { intros en Hen. apply in_map_iff in Hen as ([ab nb] & <- & Hin). unfold ecells, L1. cbn [fst snd]. pose proof (CP _ (in_combine_l _ _ _ _ Hin)) as C. unfold prcells in C. apply incl_app; [apply incl_appr; eapply incl_tran; [|exact C]; inc1|]. apply incl_app; [apply incl_appr; eapply incl_tran; [|exact C]; inc1|]. apply incl_appl. intros x Hx. apply in_flat_map. exists nb. split; auto. eapply in_combine_r; eauto. }
  eapply (h_sub lb L1 L1 P1 _ Hon Hon); [|apply incl_refl| |auto].
  2:{ intros e [HP R]. split; auto. intros en Hen. apply in_map_iff in Hen as ([ab nb] & <- & Hin). cbn [fst snd]. clear - R Hin. revert Hin. induction R as [|a b l l' H F IH]; cbn [combine]; intros Hin; [destruct Hin|]. destruct Hin as [[= <- <-]|]; auto. }
  assert (HI1 : forall e, P1 e -> ninv es e) by (intros e [_ H]; exact H).
  assert (HH1 : Hon -> P1 hval -> exists pv w, Forall2 (prel True hval) pairs pv /\ millers xi0 pv (1 :: rest) = Some w) by (intros Hh [HP _]; auto). clear HH.
  assert (CP1 : forall ab, In ab pairs -> incl (prcells ab) L1) by (intros ab Hab; unfold L1; apply incl_appr; auto). clear CP.
  assert (IR : forall h e pv, Forall2 (prel h e) pairs pv -> Forall2 (fun r (v : MV) => gred h e r (snd (snd v))) (map snd pairs) (map init pv) /\ Forall2 (fun en (v : MV) => erel h e en (fst v)) es (map init pv)) by (intros; now apply init_rb).
  assert (KR : Forall okg (map snd pairs)). { apply Forall_forall. intros r Hr. apply in_map_iff in Hr as (ab & <- & Hab). rewrite Forall_forall in KP. now apply KP. }
  assert (CR : forall r, In r (map snd pairs) -> incl (gcells r) L1). { intros r Hr. apply in_map_iff in Hr as (ab & <- & Hab). eapply incl_tran; [|exact (CP1 ab Hab)]. unfold prcells. inc1. }
  clearbody L1 P1 es. clear Fn.
  destruct pairs as [|[a0 b0] pairs']. { apply h_panic. intros Hh. now apply (HNE Hh). }
  assert (K0 : okpr (a0, b0)) by (inversion KP; auto). destruct K0 as [Ka0 Kb0]. cbn [fst snd] in Ka0, Kb0. assert (KP' : Forall okpr pairs') by (inversion KP; auto).
  assert (C0 : incl (prcells (a0, b0)) L1) by (apply CP1; now left). unfold prcells in C0. cbn [fst snd] in C0.
  assert (CP0 : incl (pcells a0) L1) by (eapply incl_tran; [|exact C0]; inc1). assert (CG0 : incl (gcells b0) L1) by (eapply incl_tran; [|exact C0]; inc1).
  eapply h_bind; [apply (L_eq L1 P1 Hon b0 a0); auto|]; cbv beta. { intros Hh HP. destruct (HH1 Hh HP) as (pv & w & F & _). destruct (F2_consl _ _ _ _ F) as (y & l' & -> & [G1 G2] & FT). eauto. }
  intros sf Ksf. eapply h_assert_bind; [destruct Ksf as [-> _]; auto|intros _].
  eapply h_bind; [eapply (W_12 _ _ Hon sf); auto; inc1|]. cbv beta. intros f Kf. cbn [app].
  (* the tangents of the other pairs *)
  eapply h_bind.
  { eapply (h_fold_rel lb Hon L1 (fun _ => True) (fun f ab => fp12_multiply_with_line_equal lb ch xi0 f (snd ab) (fst ab)) okpr ok12 prcells vcells prel (fun h e f u => wred h e f u) (fun u ta => Some (wmul u (tang (snd ta) (fst ta))))); auto.
    - intros L' Pre' b ab HL _ HA HC [K1 K2] Kb HV.
      eapply h_post; [eapply (W_leq L' Pre' Hon b (snd ab) (fst ab)); auto| | |]; cbv beta.
      + eapply incl_tran; [|exact HA]. unfold prcells. inc1.
      + eapply incl_tran; [|exact HA]. unfold prcells. inc1.
      + intros Hh HP. destruct (HV Hh HP) as (u & va & w & Hu & [G1 G2] & _). cbv beta in Hu. exists u, (snd va), (fst va). auto.
      + auto.
      + intros e o _ _ RR h u va w Hu [G1 G2] [= <-]. auto.
      + intros o _. apply incl_appl, incl_refl.
    - inc1.
    - intros ab Hab. do 2 apply incl_appr. apply CP1. now right.
    - inc1.
    - intros Hh [[HP R1] R2]. destruct (HH1 Hh HP) as (pv & w & F & _). destruct (F2_consl _ _ _ _ F) as (y & l' & -> & [G1 G2] & FT). exists (tang (snd y) (fst y)), l'. assert (E : exists w', ofold (fun u ta => Some (wmul u (tang (snd ta) (fst ta)))) l' (tang (snd y) (fst y)) = Some w'). { generalize (tang (snd y) (fst y)). clear. induction l' as [|v vas IH]; intros u; cbn [ofold]; [eauto|apply IH]. }
      destruct E as (w' & E). exists w'. split; auto. }
  cbv beta. intros f2 Kf2. cbn [app].
  destruct rest as [|d1 rest]. { apply h_panic. intros Hh. specialize (LL Hh). cbn [length] in LL. lia. }
  (* value of the product of the tangents *)
  assert (TG : forall pv' u, ofold (fun u (ta : TA) => Some (wmul u (tang (snd ta) (fst ta)))) pv' u = Some (wmul u (prodw (map (fun ta => tang (snd ta) (fst ta)) pv')))).
  { clear. induction pv' as [|v vas IH]; intros u; cbn [ofold map prodw fold_right]; [f_equal; ring|]. rewrite IH. f_equal. unfold prodw. ring. }
  set (PR := fun e : env => ((P1 e /\ (forall h (A : pt2) T, gred h e b0 A -> pred1 h e a0 T -> sred h e sf (tang A T))) /\ (forall h x, sred h e sf x -> wred h e f x)) /\
     (forall h vb vas w, wred h e f vb -> Forall2 (prel h e) pairs' vas -> ofold (fun u (ta : TA) => Some (wmul u (tang (snd ta) (fst ta)))) vas vb = Some w -> wred h e f2 w)).
  match goal with |- CalcH.hcalc _ _ ?X _ _ _ _ _ => change X with PR end.
  assert (HI2 : forall e, PR e -> ninv es e) by (intros e [[[HP _] _] _]; auto).
  assert (RB0 : forall e, PR e -> forall h pv, Forall2 (prel h e) ((a0, b0) :: pairs') pv -> rb es h e (f2, map snd ((a0, b0) :: pairs')) (map init pv)).
  { intros e [[[_ R1] R2] R3] h pv F. destruct (IR h e pv F) as [I1 I2]. split; [|split; auto]. cbn [fst]. destruct (F2_consl _ _ _ _ F) as (y & l' & -> & [G1 G2] & FT). replace (prodw (xs (map init (y :: l')))) with (wmul (tang (snd y) (fst y)) (prodw (map (fun ta => tang (snd ta) (fst ta)) l'))).
    - eapply R3; [|exact FT|apply TG]. auto.
    - unfold xs. rewrite map_map. reflexivity. }
  set (L2 := vcells f2 ++ vcells f ++ scells sf ++ L1).
  assert (CE2 : forall en, In en es -> incl (ecells en) L2) by (intros en Hen; unfold L2; do 3 apply incl_appr; auto).
  assert (CR2 : forall r, In r (map snd ((a0, b0) :: pairs')) -> incl (gcells r) L2) by (intros r Hr; unfold L2; do 3 apply incl_appr; auto).
  assert (Cf2 : vpre L2 f2) by (unfold L2; inc).
  assert (HH2 : Hon -> PR hval -> exists pv w, Forall2 (prel True hval) ((a0, b0) :: pairs') pv /\ millers xi0 pv (1 :: d1 :: rest) = Some w) by (intros Hh [[[HP _] _] _]; auto).
  clearbody PR L2. clear HH1 HI1 CE CR IR TG.
  eapply h_bind; [eapply (W_mdigit Hon es Kes L2 PR f2 (map snd ((a0, b0) :: pairs')) d1); auto|]; cbv beta.
  { split; auto. }
  { intros Hh. exact (Forall_inv (Forall_inv_tail (DD Hh))). }
  { intros Hh HP. destruct (HH2 Hh HP) as (pv & w & F & E). destruct (millers_split _ _ _ _ E) as (mv1 & mv & ws & E1 & E2 & E3 & ->). eauto. }
  intros st Kst.
  set (J := fun (e : env) (s : vec * list g2pt) => forall h pv mv1, Forall2 (prel h e) ((a0, b0) :: pairs') pv -> oall (dg d1) (map init pv) = Some mv1 -> rb es h e s mv1).
  eapply h_bind.
  { eapply (h_fold_rel lb Hon L2 (ninv es) (multi_step lb m ch xi0 hint2 es) (fun d => Hon -> dig_ok d) okst (fun _ => []) stc (fun _ _ d v => d = v) (rb es) (fun mv d => oall (fun v => it v d) mv)).
    - intros L' Pre' [f' rs'] d' HL HI _ HC Hd' Ks HV. cbn [fst snd] in *.
      eapply h_post; [eapply (W_mstep Hon es Kes L' Pre' f' rs' d'); auto| | |]; cbv beta.
      + intros en Hen. eapply incl_tran; [|exact HL]. auto.
      + eapply incl_tran; [|exact HC]. unfold stc. cbn [fst snd]. apply incl_appl, incl_refl.
      + intros r Hr. eapply incl_tran; [|exact HC]. unfold stc. cbn [fst snd]. apply incl_appr. intros x Hx. apply in_flat_map. eauto.
      + intros Hh HP. destruct (HV Hh HP) as (mv & va & mw & Hb & <- & E). eauto.
      + auto.
      + intros e o _ _ RR h mv va mw Hb <- E. eauto.
      + intros o _. apply incl_appl, incl_refl.
    - apply incl_appr, incl_refl.
    - intros e [HP _]. auto.
    - intros ? _ ? [].
    - apply incl_appl, incl_refl.
    - apply Forall_forall. intros d' Hd' Hh. pose proof (DD Hh) as D. rewrite Forall_forall in D. apply D. right. now right.
    - exact Kst.
    - intros Hh [HP R]. destruct (HH2 Hh HP) as (pv & w & F & E). destruct (millers_split _ _ _ _ E) as (mv1 & mv & ws & E1 & E2 & E3 & ->). exists mv1, rest, mv. split; [|split; [apply F2_refl|now apply ofold_oall]]. eapply R; eauto. }
  cbv beta. intros st2 [Kf3 KR3].
  eapply h_bind; [apply W_ld|]. cbv beta. intros cs Kcs.
  assert (VAL : forall e h pv w, PR e -> (forall h mv mw, rb es h e (f2, map snd ((a0, b0) :: pairs')) mv -> oall (dg d1) mv = Some mw -> rb es h e st mw) ->
     (forall h vb vas w, rb es h e st vb -> Forall2 (fun d0 v : Z => d0 = v) rest vas -> ofold (fun mv d => oall (fun v => it v d) mv) vas vb = Some w -> rb es h e st2 w) ->
     Forall2 (prel h e) ((a0, b0) :: pairs') pv -> millers xi0 pv (1 :: d1 :: rest) = Some w ->
     exists u vas, wred h e (fst st2) u /\ Forall2 (RV h e) (combine (snd st2) es) vas /\ ofold sv_fin vas u = Some w).
  { intros e h pv w HP R1 R2 F E. destruct (millers_split _ _ _ _ E) as (mv1 & mv & ws & E1 & E2 & E3 & ->). pose proof (R1 h _ _ (RB0 _ HP _ _ F) E1) as B1. pose proof (R2 h _ _ _ B1 (F2_refl rest) (ofold_oall _ _ _ _ E2)) as (B2 & B3 & B4).
    destruct (fin_fold h e _ _ _ _ E3 B3 B4) as (vas & c & V1 & V2 & V3). exists (prodw (xs mv)), vas. rewrite V2. auto. }
  eapply h_post.
  { eapply (h_fold_rel lb Hon (stc st2 ++ (vcells (fst cs) ++ vcells (snd cs)) ++ L2) (fun e => cred e cs) _ (fun re => okg (fst re) /\ In (snd re) es) ok12 rcells vcells RV (fun h e f u => wred h e f u) sv_fin) with (l := combine (snd st2) es) (b := fst st2).
    - intros L' Pre' f' [r [[a b] nb]] HL HI HA HC [K1 K2] Kf' HV. cbn [fst snd] in *. pose proof Kes as Kes'. rewrite Forall_forall in Kes'. destruct (Kes' _ K2) as (Q1 & Q2 & Q3). cbn [fst snd] in *.
      eapply h_post; [eapply (W_fin b a Q2 Q1 L' Pre' Hon cs f' r); auto| | |]; cbv beta.
      + eapply incl_tran; [|exact HA]. unfold rcells, ecells. cbn [fst snd]. inc1.
      + eapply incl_tran; [|exact HA]. unfold rcells, ecells. cbn [fst snd]. inc1.
      + eapply incl_tran; [|exact HA]. unfold rcells, ecells. cbn [fst snd]. inc1.
      + eapply incl_tran; [|exact HL]. inc1.
      + eapply incl_tran; [|exact HL]. inc1.
      + intros Hh HP. destruct (HV Hh HP) as (u & [[T A] B] & w & Hu & [G1 [G2 G3]] & E). unfold sv_fin in E. cbn [fst snd] in *. exists A, T, (u, B), w. split; auto. split; auto. split; auto. split; auto.
      + auto.
      + intros e o _ _ RR h u [[T A] B] w Hu [G1 [G2 G3]] E. unfold sv_fin in E. cbn [fst snd] in *. eapply RR; eauto. split; auto.
      + intros o _. apply incl_appl, incl_refl.
    - apply incl_app; [|apply incl_app]; inc1.
    - intros e [_ HC]. exact HC.
    - apply rcells_in; [intros r Hr x Hx|intros en Hen; do 3 apply incl_appr; auto]. apply in_or_app. right. apply in_or_app. left. unfold stc. apply in_or_app. right. apply in_flat_map. eauto.
    - unfold stc. inc1.
    - now apply F_comb.
    - exact Kf3.
    - intros Hh [[[HP R1] R2] _]. destruct (HH2 Hh HP) as (pv & w & F & E). destruct (VAL hval True pv w HP R1 R2 F E) as (u & vas & V1 & V2 & V3). eauto 10. }
  - auto.
  - cbv beta. intros e o _ [[[HP R1] R2] _] RW h pv w F E. destruct (VAL e h pv w HP R1 R2 F E) as (u & vas & V1 & V2 & V3). eauto.
  - intros o _. apply incl_appl, incl_refl.
Qed.
End Pair.
