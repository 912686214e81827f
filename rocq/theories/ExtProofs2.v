(** Tests, division and Fp2 operations of FieldExt.v. [h : Prop] as in FpField.v. *)
From Coq Require Import ZArith Znumtheory Lia List Bool Ring.
From Verif Require Import Field Spec Context ContextProofs Utils Logic Gate GateProofs ChainProofs IPProofs BitProofs PowProofs IPComp Derived
  Range RangeProofs RangeProofs2 RangeProofs3 RegionGets Calc CalcH RegionPrev RegionLast BigPrims BigNum BigInt BigSpec BigOps BigSel BigCmp BigSub BigCarry BigMod BigCrtNum BigCrt FpChip FpProofs FpProofs2 FpProofs3 FpField FpField2 FpField3 FieldExt ExtSpec ExtProofs.
Import ListNotations.
Local Open Scope Z_scope.

Lemma F2_impl {A B} (P Q : A -> B -> Prop) : (forall x y, P x y -> Q x y) -> forall a b, Forall2 P a b -> Forall2 Q a b.
Proof. induction 2; constructor; auto. Qed.
Lemma F2_nth {A B} (P : A -> B -> Prop) a b : Forall2 P a b -> forall i x y, nth_error a i = Some x -> nth_error b i = Some y -> P x y.
Proof. induction 1; intros [|i]; cbn [nth_error]; try discriminate; intros; [congruence|eauto]. Qed.
Lemma F2_in_l {A B} (P : A -> B -> Prop) a b x : Forall2 P a b -> In x a -> exists y, In y b /\ P x y.
Proof. induction 1; intros []; subst; [exists y; split; auto; now left|]. destruct IHForall2 as (z & ? & ?); auto. exists z. split; auto. now right. Qed.
Lemma F2_snoc {A B} (P : A -> B -> Prop) a x ts : Forall2 P (a ++ [x]) ts -> exists l t, ts = l ++ [t] /\ Forall2 P a l /\ P x t.
Proof. intros H. apply Forall2_app_inv_l in H as (l & r & H1 & H2 & ->). inversion H2; subst. inversion H5; subst. eauto. Qed.

Section ExtProofs.
Context {p : positive}.
Notation Fp := (F p).
Notation AV := (AV p).
Notation crt := (crt p).
Notation vec := (list crt).
Variables (lb : nat) (m : positive).
Notation env := (env (p:=p)).
Notation hcalc := (hcalc lb).
Hypothesis Hp : prime (Z.pos p).
Hypothesis Hlb : (1 <= lb < 64)%nat.
Hypothesis Hlb2 : (2 * lb <= CAPACITY p)%nat.
Hypothesis Hm : 1 < Z.pos m.
Add Ring Fring : (F_ring p) (morphism (F_morph p), constants [Fcst]).
Add Ring Fringm : (F_ring m) (morphism (F_morph m), constants [Fcst]).
Variables (ch : fpchip p) (n k : nat).
Hypothesis HN : fpchip_new m n k = Some ch.
Hypothesis HK : fp_params (p:=p) lb m n k.
Notation mz := (Z.pos m).
Notation Fm := (F m).
Notation M2 := (2 ^ Z.of_nat (bits mz)).
Notation W := (2 ^ Z.of_nat (n * k + NUM_BITS p)).
Notation frep := (frep (p:=p) m n).
Notation fred := (fred (p:=p) m n).
Notation fcan := (fcan (p:=p) m n).
Notation isk := (isk k).
Notation lg := (log2_ceil (Z.of_nat k)).
Notation islk := (islk k).
Notation room := (room (p:=p) lb n k).
Notation visk := (visk k).
Notation vism := (vism n k).
Notation vrep := (vrep m n).
Notation vred := (vred m n).
Notation vcan := (vcan m n).

Section Tests.
Variables (L : list AV) (Pre : env -> Prop) (Hon : Prop).
(** ** the tests *)
Lemma h_fold_test {A} (test : A -> M p AV) (op : qcell p -> qcell p -> M p AV) (l : list A) (bop : bool -> bool -> bool) (Bop : list bool -> bool)
    (Q : env -> A -> Prop) (T : env -> A -> bool -> Prop) :
  (forall t, Bop [t] = t) -> (forall ts t, ts <> [] -> Bop (ts ++ [t]) = bop t (Bop ts)) ->
  (forall L Pre (a b : AV), In a L -> In b L ->
     hcalc L Pre Hon (op (Existing a) (Existing b)) (fun _ => True) (fun e o => forall s t, e a = fbool s -> e b = fbool t -> e o = fbool (bop s t)) one) ->
  (forall x, In x l -> hcalc L Pre Hon (test x) (fun _ => True) (fun e o => Q e x /\ forall t, T e x t -> e o = fbool t) one) ->
  (Hon -> l <> []) ->
  hcalc L Pre Hon (fold_test test op l) (fun _ => l <> []) (fun e o => Forall (Q e) l /\ forall ts, Forall2 (T e) l ts -> e o = fbool (Bop ts)) one.
Proof.
  intros B1 B2 HO HT HN0. unfold fold_test.
  eapply h_bind; [apply (h_foldM lb L Pre Hon _ (fun done b => match b with None => done = [] | Some _ => done <> [] end)
    (fun e done b => Forall (Q e) done /\ match b with None => True | Some o => forall ts, Forall2 (T e) done ts -> e o = fbool (Bop ts) end)
    (fun b => match b with None => [] | Some o => [o] end))| ]; cbv beta; auto.
  - intros done x rest b El Ib.
    eapply h_bind; [eapply h_sub; [apply (HT x); rewrite El; apply in_or_app; right; now left| | |]|]; cbv beta.
    { intros y Hy. apply in_or_app; auto. } { tauto. } { auto. }
    intros c _. destruct b as [q|].
    + eapply h_bind; [apply HO; cbn; auto|]. cbv beta. intros o _.
      apply h_ret; [destruct done; discriminate|cbn; intros y [->|[]]; now left|].
      intros e [[[HP [HQ HJ]] [HQx HTx]] HOx]. split; [apply Forall_app; auto|]. intros ts Hts.
      apply F2_snoc in Hts as (l0 & t & -> & H1 & H2). rewrite B2. { apply HOx; auto. }
      intros ->. inversion H1; subst. contradiction.
    + apply h_ret; [destruct done; discriminate|cbn; intros y [->|[]]; now left|].
      intros e [[HP [HQ _]] [HQx HTx]]. subst done. split; [constructor; auto|]. intros ts Hts. inversion Hts; subst. inversion H3; subst. rewrite B1. auto.
  - intros y [].
  - intros b Ib. destruct b as [o|].
    + eapply h_post; [apply h_lift; eauto| | |]; cbv beta; auto.
      * intros e o' [= <-] [_ [J1 J2]] _. split; auto.
      * intros o' [= <-] y Hy. apply in_or_app; right. apply in_or_app; now left.
    + subst l. eapply h_post; [apply h_lift; intros Hh; exfalso; now apply HN0| | |]; cbv beta; intros; discriminate.
Qed.
Lemma h_and_b L' Pre' (a b : AV) : In a L' -> In b L' ->
  hcalc L' Pre' Hon (and (Existing a) (Existing b)) (fun _ => True) (fun e o => forall s t, e a = fbool s -> e b = fbool t -> e o = fbool (s && t)) one.
Proof.
  intros Ha Hb. unfold and. eapply h_post; [apply calc_h, (calc_mul lb); cbn; auto| | |]; cbv beta; auto.
  - intros e o _ _ E s t Es Et. rewrite E. cbn [qe]. rewrite Es, Et. apply fbool_mul.
  - intros c _. apply incl_appl, incl_refl.
Qed.
Lemma h_or_b L' Pre' (a b : AV) : In a L' -> In b L' ->
  hcalc L' Pre' Hon (or (Existing a) (Existing b)) (fun _ => True) (fun e o => forall s t, e a = fbool s -> e b = fbool t -> e o = fbool (s || t)) one.
Proof.
  intros Ha Hb. eapply h_post; [apply calc_h, (calc_or lb); cbn; auto| | |]; cbv beta; auto.
  - intros e o _ _ E s t Es Et. rewrite E. cbn [qe]. rewrite Es, Et. destruct s, t; cbn [fbool orb]; ring.
  - intros c _. apply incl_appl, incl_refl.
Qed.
Lemma fold_and ts t : forallb (fun b => b) (ts ++ [t]) = t && forallb (fun b => b) ts.
Proof. rewrite forallb_app. cbn [forallb]. rewrite andb_true_r. apply andb_comm. Qed.
Lemma fold_or ts t : existsb (fun b => b) (ts ++ [t]) = t || existsb (fun b => b) ts.
Proof. rewrite existsb_app. cbn [existsb]. rewrite orb_false_r. apply orb_comm. Qed.
Lemma forallb_map {A} (f : A -> bool) l : forallb (fun b => b) (map f l) = forallb f l.
Proof. induction l; cbn [map forallb]; congruence. Qed.
Lemma existsb_map {A} (f : A -> bool) l : existsb (fun b => b) (map f l) = existsb f l.
Proof. induction l; cbn [map existsb]; congruence. Qed.
Definition hon_redv (a : vec) : Prop := Hon -> Pre hval -> exists v, vred True hval a v.

Lemma v_is_zero (a : vec) : vpre L a -> vism a -> (Hon -> zcap (p:=p) n k) -> (Hon -> a <> []) -> hon_redv a ->
  hcalc L Pre Hon (vec_is_zero lb ch a) (fun _ => a <> []) (fun e o => forall h v, vred h e a v -> vcan h e a v /\ e o = fbool (forallb Fis0 v)) one.
Proof.
  intros Ca Ka Hz Hne HH. unfold vec_is_zero. unfold ExtProofs.vism in Ka. rewrite Forall_forall in Ka.
  eapply h_post; [apply (h_fold_test (fp_is_zero lb ch) and a andb (forallb (fun b => b)) (fun e c => forall h v, fred h e c v -> fcan h e c v) (fun e c t => exists h v, fred h e c v /\ t = Fis0 v))| | |]; cbv beta; auto.
  - intros t. cbn. apply andb_true_r.
  - intros ts t _. apply fold_and.
  - intros. now apply h_and_b.
  - intros c Hc. eapply h_post; [apply (f_is_zero lb m Hp Hlb Hlb2 Hm ch n k HN HK L Pre Hon c); auto; [eapply vpre_in; eauto|]| | |]; cbv beta; auto.
    + intros Hh HP. destruct (HH Hh HP) as (v & Hv). eapply vred_in; eauto.
    + intros e o _ _ R. split; [intros h v Hv; now apply (R h)|]. intros t (h & v & Hv & ->). now apply (R h).
    + intros o _. apply incl_appl, incl_refl.
  - intros e o _ _ [R1 R2] h v Hv. split.
    + clear - R1 Hv. revert R1. induction Hv; intros R1; inversion R1; subst; constructor; auto. now apply IHHv.
    + rewrite (R2 (map Fis0 v)); [now rewrite forallb_map|]. apply F2_map_r. eapply F2_impl; [|exact Hv]. cbv beta. eauto.
  - intros o _. apply incl_appl, incl_refl.
Qed.
Lemma v_is_soft_zero (a : vec) : vpre L a -> vism a -> (Hon -> zcap (p:=p) n k) -> (Hon -> a <> []) ->
  hcalc L Pre Hon (vec_is_soft_zero a) (fun _ => a <> []) (fun e o => forall h v, vcan h e a v -> e o = fbool (forallb Fis0 v)) one.
Proof.
  intros Ca Ka Hz Hne. unfold vec_is_soft_zero. unfold ExtProofs.vism in Ka. rewrite Forall_forall in Ka.
  eapply h_post; [apply (h_fold_test fp_is_soft_zero and a andb (forallb (fun b => b)) (fun e c => True) (fun e c t => exists h v, fcan h e c v /\ t = Fis0 v))| | |]; cbv beta; auto.
  - intros t. cbn. apply andb_true_r.
  - intros ts t _. apply fold_and.
  - intros. now apply h_and_b.
  - intros c Hc. eapply h_post; [apply (f_is_soft_zero lb m Hp Hlb Hlb2 n k HK L Pre Hon c); auto; eapply vpre_in; eauto| | |]; cbv beta; auto.
    + intros e o _ _ R. split; auto. intros t (h & v & Hv & ->). now apply (R h).
    + intros o _. apply incl_appl, incl_refl.
  - intros e o _ _ [_ R2] h v Hv. rewrite (R2 (map Fis0 v)); [now rewrite forallb_map|]. apply F2_map_r. eapply F2_impl; [|exact Hv]. cbv beta. eauto.
  - intros o _. apply incl_appl, incl_refl.
Qed.
(** one exactly when some coordinate is a non-zero number below the modulus *)
Lemma v_is_soft_nonzero (a : vec) : vpre L a -> vism a -> (Hon -> zcap (p:=p) n k) -> (Hon -> a <> []) ->
  (Hon -> Pre hval -> exists x, Forall2 (proper n hval) a x) ->
  hcalc L Pre Hon (vec_is_soft_nonzero lb ch a) (fun _ => a <> []) (fun e o => forall x, Forall2 (proper n e) a x -> e o = fbool (existsb (fun x => negb (x =? 0) && (x <? mz)) x)) one.
Proof.
  intros Ca Ka Hz Hne HH. unfold vec_is_soft_nonzero. unfold ExtProofs.vism in Ka. rewrite Forall_forall in Ka.
  eapply h_post; [apply (h_fold_test (fp_is_soft_nonzero lb ch) or a orb (existsb (fun b => b)) (fun e c => True) (fun e c t => exists x, proper n e c x /\ t = negb (x =? 0) && (x <? mz)))| | |]; cbv beta; auto.
  - intros t. cbn. apply orb_false_r.
  - intros ts t _. apply fold_or.
  - intros. now apply h_or_b.
  - intros c Hc. eapply h_post; [apply (h_fp_is_soft_nonzero lb m Hp Hlb Hlb2 Hm ch n k HN HK L Pre Hon c); auto| | |]; cbv beta; auto.
    + eapply vpre_in; eauto.
    + intros Hh. destruct (Ka c Hc). auto.
    + intros Hh HP. destruct (HH Hh HP) as (x & Hx). destruct (F2_in_l _ _ _ c Hx Hc) as (y & _ & Hy). eauto.
    + intros e o _ _ R. split; auto. intros t (x & Hx & ->). auto.
    + intros o _. apply incl_appl, incl_refl.
  - intros e o _ _ [_ R2] x Hx. rewrite (R2 (map (fun x => negb (x =? 0) && (x <? mz)) x)); [now rewrite existsb_map|]. apply F2_map_r. eapply F2_impl; [|exact Hx]. cbv beta. eauto.
  - intros o _. apply incl_appl, incl_refl.
Qed.
Definition veqb (u v : list Fm) : bool := forallb (fun xy => Feqb (fst xy) (snd xy)) (combine u v).
Lemma veqb_eq u v : length u = length v -> (veqb u v = true <-> u = v).
Proof.
  unfold veqb. revert v. induction u as [|x u IH]; intros [|y v] HL; try discriminate; [split; auto|]. cbn [combine forallb fst snd].
  rewrite andb_true_iff, Feqb_eq, IH by (cbn [length] in HL; lia). split; [intros [-> ->]; auto|intros [= -> ->]; auto].
Qed.
Lemma v_is_equal_unenforced (a b : vec) : vpre L a -> vpre L b -> vism a -> vism b -> (Hon -> length a = length b /\ a <> []) ->
  hcalc L Pre Hon (vec_is_equal_unenforced a b) (fun _ => length a = length b /\ a <> [])
    (fun e o => forall h u v, vcan h e a u -> vcan h e b v -> e o = fbool (veqb u v)) one.
Proof.
  intros Ca Cb Ka Kb HL. unfold vec_is_equal_unenforced. unfold ExtProofs.vism in Ka, Kb. rewrite Forall_forall in Ka, Kb.
  eapply h_lift_bind. { intros Hh _ _. unfold zip_eq. rewrite (proj2 (Nat.eqb_eq _ _) (proj1 (HL Hh))). eauto. }
  intros l El. unfold zip_eq in El. destruct (Nat.eqb_spec (length a) (length b)) as [E|]; [|discriminate]. injection El as <-.
  eapply h_post; [apply (h_fold_test (fun xy => fp_is_equal_unenforced (fst xy) (snd xy)) and (combine a b) andb (forallb (fun b => b)) (fun e c => True)
     (fun e c t => exists h u v, fcan h e (fst c) u /\ fcan h e (snd c) v /\ t = Feqb u v))| | |]; cbv beta; auto.
  - intros t. cbn. apply andb_true_r.
  - intros ts t _. apply fold_and.
  - intros. now apply h_and_b.
  - intros [x y] Hc. cbn [fst snd]. pose proof (in_combine_l _ _ _ _ Hc) as Hx. pose proof (in_combine_r _ _ _ _ Hc) as Hy.
    eapply h_post; [apply (f_is_equal_unenforced lb m Hp Hlb Hlb2 n k HK L Pre Hon x y n n); auto; [apply (vpre_in L a)|apply (vpre_in L b)]; auto| | |]; cbv beta; auto.
    + intros e o _ _ R. split; auto. intros t (h & u & v & Hu & Hv & ->). now apply (R h).
    + intros o _. apply incl_appl, incl_refl.
  - intros Hh HE. destruct (HL Hh) as [_ Ha]. destruct a, b; cbn [length combine] in *; congruence.
  - intros o HE. split; auto. intros ->. now apply HE.
  - intros e o _ _ [_ R2] h u v Hu Hv. rewrite (R2 (map (fun xy => Feqb (fst xy) (snd xy)) (combine u v))); [now rewrite forallb_map|]. apply F2_map_r.
    clear - Hu Hv. revert b v Hv. induction Hu; intros b w Hv; [constructor|]. destruct Hv; cbn [combine]; constructor; auto. cbn [fst snd]. eauto 6.
  - intros o _. apply incl_appl, incl_refl.
Qed.
(** the comparison stops at the shorter argument *)
Lemma v_assert_equal (a b : vec) : vpre L a -> vpre L b -> vism a -> vism b ->
  (Hon -> Pre hval -> exists u, vred True hval a u /\ vred True hval b u) ->
  hcalc L Pre Hon (vec_assert_equal lb ch a b) (fun _ => True)
    (fun e _ => forall h u v, vred h e a u -> vred h e b v -> forall i x y, nth_error u i = Some x -> nth_error v i = Some y -> x = y) (fun _ => []).
Proof.
  intros Ca Cb Ka Kb HH. unfold vec_assert_equal. unfold ExtProofs.vism in Ka, Kb. rewrite Forall_forall in Ka, Kb.
  eapply h_post; [apply (h_iterM lb L Pre Hon _ (fun e xy => forall h u v, fred h e (fst xy) u -> fred h e (snd xy) v -> u = v))| | |]; cbv beta; auto.
  - intros [x y] Hc. cbn [fst snd]. pose proof (in_combine_l _ _ _ _ Hc) as Hx. pose proof (in_combine_r _ _ _ _ Hc) as Hy.
    eapply h_post; [apply (f_assert_equal lb m Hp Hlb Hlb2 Hm ch n k HN HK L Pre Hon x y n n); auto| | |]; cbv beta; auto.
    + apply (vpre_in L a); auto.
    + apply (vpre_in L b); auto.
    + intros Hh HP. destruct (HH Hh HP) as (u & Hu & Hv). clear - Hc Hu Hv. revert b Hc Hv. induction Hu; intros b Hc Hv; [destruct Hc|].
      inversion Hv; subst. cbn [combine] in Hc. destruct Hc as [[= -> ->]|Hc]; eauto.
    + intros e _ _ _ R h u v Hu Hv. destruct (R h u v Hu Hv) as (-> & _). auto.
    + intros _ _ z [].
  - intros e _ _ _ R h u v Hu Hv. clear - R Hu Hv. revert b v R Hv. induction Hu as [|c x a u Hx Hu IH]; intros b v R Hv [|i] x' y'; cbn [nth_error]; try discriminate;
    destruct Hv as [|d y b v Hy Hv]; cbn [nth_error]; try discriminate; cbn [combine] in R; inversion R; subst; cbn [fst snd] in *.
    + intros [= <-] [= <-]. eauto.
    + eapply IH; eauto.
  - intros _ _ z [].
Qed.
End Tests.

(** ** multiplication and division in an extension given by its [mul_no_carry] *)
Section Div.
Variables (deg : nat) (mul_nc : vec -> vec -> M p vec) (spec : list Fm -> list Fm -> list Fm) (bm : nat) (BM : Z).
Hypothesis Hdeg : (0 < deg)%nat.
Hypothesis spec_len : forall u v, length u = deg -> length v = deg -> length (spec u v) = deg.
Hypothesis Hroom : room (bm + 1).
Hypothesis Hbm : (n <= bm)%nat.
Hypothesis HBM : 8 * (BM + M2) < W.
Hypothesis Hmul : forall L Pre (Hon : Prop) (a b : vec), vpre L a -> vpre L b -> vism a -> vism b -> (Hon -> length a = deg /\ length b = deg) ->
  hcalc L Pre Hon (mul_nc a b) (fun o => length a = deg /\ length b = deg /\ length o = deg /\ visk o bm)
    (fun e o => forall h u v, vred h e a u -> vred h e b v -> vrep h e o BM (spec u v)) vcells.
Lemma M2_pos : 0 < M2. Proof. apply Z.pow_pos_nonneg; lia. Qed.

Lemma v_mul L (Pre : env -> Prop) (Hon : Prop) (a b : vec) : vpre L a -> vpre L b -> vism a -> vism b -> (Hon -> length a = deg /\ length b = deg) ->
  (Hon -> Pre hval -> exists u v, vred True hval a u /\ vred True hval b v) ->
  hcalc L Pre Hon (ext_mul lb ch mul_nc a b) (fun o => length a = deg /\ length b = deg /\ length o = deg /\ vism o)
    (fun e o => forall h u v, vred h e a u -> vred h e b v -> vred h e o (spec u v)) vcells.
Proof.
  intros Ca Cb Ka Kb HL HH. unfold ext_mul. pose proof M2_pos.
  eapply h_bind; [apply Hmul; auto|]. cbv beta. intros c (H1 & H2 & H3 & H4).
  eapply h_post; [apply (v_carry lb m Hp Hlb Hlb2 Hm ch n k HN HK _ _ Hon c bm); auto| | |]; cbv beta.
  - apply incl_appl, incl_refl.
  - eapply room_le; eauto. lia.
  - intros Hh [HP R]. destruct (HH Hh HP) as (u & v & Hu & Hv). exists BM, (spec u v). split; [eauto|lia].
  - intros o [L1 L2]. repeat split; auto; congruence.
  - intros e o _ [HP R1] R2 h u v Hu Hv. apply (R2 h BM); [eauto|lia].
  - intros o _. apply incl_appl, incl_refl.
Qed.
Lemma value_ok (x : vec) : vec_value m ch deg x = if Nat.eqb (length x) deg then Some (map (fun c => of_Z m (c_val c)) x) else None.
Proof.
  unfold vec_value. destruct (Nat.eqb _ _); auto. induction x as [|c x IH]; auto. cbn [map]. rewrite (gav lb m Hp Hlb Hlb2 Hm ch n k HN c), IH. reflexivity.
Qed.
Lemma value_hon (h : Prop) (e : env) (a : vec) B u : h -> vrep h e a B u -> map (fun c : crt => of_Z m (c_val c)) a = u.
Proof. intros Hh. induction 1 as [|c x a u (z & _ & _ & E & D) H IH]; auto. cbn [map]. destruct (D Hh) as [_ D2]. rewrite D2, IH. congruence. Qed.
Lemma vrep_hon (h : Prop) (e : env) (a : vec) B u : vrep h e a B u -> a <> [] -> h -> e = hval.
Proof. intros [|c x a' u' (z & _ & _ & _ & D) _] Ha Hh; [contradiction|]. now destruct (D Hh). Qed.
Lemma sub_zero (u v : list Fm) : length u = length v -> Forall (fun x => x = F0) (vmap2 Fsub u v) -> u = v.
Proof.
  revert v. induction u as [|x u IH]; intros [|y v] HL H; try discriminate; auto. unfold vmap2 in H. cbn [combine map fst snd] in H. inversion H; subst. f_equal; [|apply IH; auto].
  transitivity ((x - y) + y)%F; [ring|]. rewrite H2. ring.
Qed.
Lemma zero_sub (u : list Fm) : Forall (fun x => x = F0) (vmap2 Fsub u u).
Proof. induction u; constructor; auto. cbn [fst snd]. ring. Qed.
Lemma add_zero (u v : list Fm) : length u = length v -> Forall (fun x => x = F0) (vmap2 Fadd u v) -> u = map Fopp v.
Proof.
  revert v. induction u as [|x u IH]; intros [|y v] HL H; try discriminate; auto. unfold vmap2 in H. cbn [combine map fst snd] in H. inversion H; subst. cbn [map]. f_equal; [|apply IH; auto].
  transitivity ((x + y) - y)%F; [ring|]. rewrite H2. ring.
Qed.
Lemma zero_add (u : list Fm) : Forall (fun x => x = F0) (vmap2 Fadd (map Fopp u) u).
Proof. induction u; constructor; auto. cbn [fst snd]. ring. Qed.

(** the honest prover's quotient is right whenever a quotient exists *)
Lemma v_divide_unsafe L (Pre : env -> Prop) (Hon : Prop) quot (a b : vec) : vpre L a -> vpre L b -> vism a -> vism b -> (Hon -> length a = deg /\ length b = deg) ->
  (forall u v, length u = deg -> length v = deg -> length (quot u v) = deg) ->
  (Hon -> Pre hval -> exists u v, vred True hval a u /\ vred True hval b v /\ spec (quot u v) v = u) ->
  hcalc L Pre Hon (ext_divide_unsafe lb m ch deg mul_nc quot a b) (fun o => length a = deg /\ length b = deg /\ length o = deg /\ vism o)
    (fun e o => forall h u v, vred h e a u -> vred h e b v -> (h -> Hon) -> exists w, vred h e o w /\ spec w v = u /\ (h -> w = quot u v)) vcells.
Proof.
  intros Ca Cb Ka Kb HL HQ HH. unfold ext_divide_unsafe. rewrite !value_ok. pose proof M2_pos.
  eapply h_lift_bind. { intros Hh _ _. destruct (HL Hh) as [-> _]. rewrite Nat.eqb_refl. eauto. } intros av Ea.
  destruct (Nat.eqb_spec (length a) deg) as [La|]; [|discriminate]. injection Ea as <-.
  eapply h_lift_bind. { intros Hh _ _. destruct (HL Hh) as [_ ->]. rewrite Nat.eqb_refl. eauto. } intros bv Eb.
  destruct (Nat.eqb_spec (length b) deg) as [Lb|]; [|discriminate]. injection Eb as <-.
  set (qv := quot _ _). assert (Lqv : length qv = deg) by (apply HQ; rewrite map_length; auto).
  assert (Na : a <> []) by (intros ->; cbn in La; lia).
  eapply h_bind; [apply (v_load_private lb m Hp Hlb Hlb2 Hm ch n k HN HK)|]. cbv beta. intros q [Lq Kq].
  eapply h_bind; [apply Hmul; auto|]; cbv beta. { apply incl_appl, incl_refl. } { apply incl_appr; auto. } { intros _. split; congruence. }
  intros qb (_ & _ & L3 & K3).
  eapply h_bind; [apply (v_sub lb m Hlb Hlb2 n k _ _ Hon qb a bm n); auto|]; cbv beta.
  { apply incl_appl, incl_refl. } { do 2 apply incl_appr; auto. } { now apply vism_visk. } { intros _. congruence. }
  intros c (L4 & L5 & K5).
  eapply h_bind; [apply (v_check0 lb m Hp Hlb Hlb2 Hm ch n k HN HK _ _ Hon c (Nat.max bm n + 1)); auto|]; cbv beta.
  { apply incl_appl, incl_refl. } { eapply room_le; eauto. lia. }
  { intros Hh [[[HP RQ] RM] RS]. destruct (HH Hh HP) as (u & v & Hu & Hv & E). destruct RQ as (w & Lw & RW & EW).
    assert (RW1 : vred True hval q w) by (apply RW; auto). 
    assert (Ew : w = quot u v). { rewrite EW by auto. unfold qv. rewrite (value_hon True hval a M2 u I), (value_hon True hval b M2 v I); auto; now apply (vred_vrep lb m Hlb Hlb2). }
    pose proof (RM True w v RW1 Hv) as H1. rewrite Ew, E in H1.
    exists (BM + M2), (vmap2 Fsub u u). split; [apply (RS True); auto; now apply (vred_vrep lb m Hlb Hlb2)|]. split; [lia|apply zero_sub]. }
  intros [] _. apply h_ret; [repeat split; auto; congruence| |].
  { intros x Hx. cbn [app]. do 2 (apply in_or_app; right). apply in_or_app; now left. }
  intros e [[[[HP RQ] RM] RS] RZ] h u v Hu Hv Hh. destruct RQ as (w & Lw & RW & EW).
  assert (HE : h -> e = hval) by (eapply vrep_hon; [apply (vred_vrep lb m Hlb Hlb2); exact Hu|auto]).
  exists w. pose proof (RW h HE) as Hw. split; auto. pose proof (vred_len lb m Hlb Hlb2 n _ _ _ _ Hu). pose proof (vred_len lb m Hlb Hlb2 n _ _ _ _ Hv). pose proof (vred_len lb m Hlb Hlb2 n _ _ _ _ Hw). split.
  - apply sub_zero; [rewrite spec_len; congruence|]. apply (RZ h (BM + M2)); [|lia]. apply (RS h); auto. now apply (vred_vrep lb m Hlb Hlb2).
  - intros hh. rewrite EW by auto. unfold qv. rewrite (value_hon h e a M2 u hh), (value_hon h e b M2 v hh); auto; now apply (vred_vrep lb m Hlb Hlb2).
Qed.
Lemma v_neg_divide_unsafe L (Pre : env -> Prop) (Hon : Prop) quot (a b : vec) : vpre L a -> vpre L b -> vism a -> vism b -> (Hon -> length a = deg /\ length b = deg) ->
  (forall u v, length u = deg -> length v = deg -> length (quot u v) = deg) ->
  (Hon -> Pre hval -> exists u v, vred True hval a u /\ vred True hval b v /\ spec (quot u v) v = map Fopp u) ->
  hcalc L Pre Hon (ext_neg_divide_unsafe lb m ch deg mul_nc quot a b) (fun o => length a = deg /\ length b = deg /\ length o = deg /\ vism o)
    (fun e o => forall h u v, vred h e a u -> vred h e b v -> (h -> Hon) -> exists w, vred h e o w /\ spec w v = map Fopp u /\ (h -> w = quot u v)) vcells.
Proof.
  intros Ca Cb Ka Kb HL HQ HH. unfold ext_neg_divide_unsafe. rewrite !value_ok. pose proof M2_pos.
  eapply h_lift_bind. { intros Hh _ _. destruct (HL Hh) as [-> _]. rewrite Nat.eqb_refl. eauto. } intros av Ea.
  destruct (Nat.eqb_spec (length a) deg) as [La|]; [|discriminate]. injection Ea as <-.
  eapply h_lift_bind. { intros Hh _ _. destruct (HL Hh) as [_ ->]. rewrite Nat.eqb_refl. eauto. } intros bv Eb.
  destruct (Nat.eqb_spec (length b) deg) as [Lb|]; [|discriminate]. injection Eb as <-.
  set (qv := quot _ _). assert (Lqv : length qv = deg) by (apply HQ; rewrite map_length; auto).
  assert (Na : a <> []) by (intros ->; cbn in La; lia).
  eapply h_bind; [apply (v_load_private lb m Hp Hlb Hlb2 Hm ch n k HN HK)|]. cbv beta. intros q [Lq Kq].
  eapply h_bind; [apply Hmul; auto|]; cbv beta. { apply incl_appl, incl_refl. } { apply incl_appr; auto. } { intros _. split; congruence. }
  intros qb (_ & _ & L3 & K3).
  eapply h_bind; [apply (v_add lb m Hlb Hlb2 n k _ _ Hon qb a bm n); auto|]; cbv beta.
  { apply incl_appl, incl_refl. } { do 2 apply incl_appr; auto. } { now apply vism_visk. } { intros _. congruence. }
  intros c (L4 & L5 & K5).
  eapply h_bind; [apply (v_check0 lb m Hp Hlb Hlb2 Hm ch n k HN HK _ _ Hon c (Nat.max bm n + 1)); auto|]; cbv beta.
  { apply incl_appl, incl_refl. } { eapply room_le; eauto. lia. }
  { intros Hh [[[HP RQ] RM] RS]. destruct (HH Hh HP) as (u & v & Hu & Hv & E). destruct RQ as (w & Lw & RW & EW).
    assert (RW1 : vred True hval q w) by (apply RW; auto). 
    assert (Ew : w = quot u v). { rewrite EW by auto. unfold qv. rewrite (value_hon True hval a M2 u I), (value_hon True hval b M2 v I); auto; now apply (vred_vrep lb m Hlb Hlb2). }
    pose proof (RM True w v RW1 Hv) as H1. rewrite Ew, E in H1.
    exists (BM + M2), (vmap2 Fadd (map Fopp u) u). split; [apply (RS True); auto; now apply (vred_vrep lb m Hlb Hlb2)|]. split; [lia|apply zero_add]. }
  intros [] _. apply h_ret; [repeat split; auto; congruence| |].
  { intros x Hx. cbn [app]. do 2 (apply in_or_app; right). apply in_or_app; now left. }
  intros e [[[[HP RQ] RM] RS] RZ] h u v Hu Hv Hh. destruct RQ as (w & Lw & RW & EW).
  assert (HE : h -> e = hval) by (eapply vrep_hon; [apply (vred_vrep lb m Hlb Hlb2); exact Hu|auto]).
  exists w. pose proof (RW h HE) as Hw. split; auto. pose proof (vred_len lb m Hlb Hlb2 n _ _ _ _ Hu). pose proof (vred_len lb m Hlb Hlb2 n _ _ _ _ Hv). pose proof (vred_len lb m Hlb Hlb2 n _ _ _ _ Hw). split.
  - apply add_zero; [rewrite spec_len; congruence|]. apply (RZ h (BM + M2)); [|lia]. apply (RS h); auto. now apply (vred_vrep lb m Hlb Hlb2).
  - intros hh. rewrite EW by auto. unfold qv. rewrite (value_hon h e a M2 u hh), (value_hon h e b M2 v hh); auto; now apply (vred_vrep lb m Hlb Hlb2).
Qed.
(** with the check that the divisor is not zero *)
Lemma v_divide L (Pre : env -> Prop) (Hon : Prop) quot (a b : vec) : vpre L a -> vpre L b -> vism a -> vism b -> (Hon -> length a = deg /\ length b = deg) -> (Hon -> zcap (p:=p) n k) ->
  (forall u v, length u = deg -> length v = deg -> length (quot u v) = deg) ->
  (Hon -> Pre hval -> exists u v, vred True hval a u /\ vred True hval b v /\ spec (quot u v) v = u /\ forallb Fis0 v = false) ->
  hcalc L Pre Hon (ext_divide lb m ch deg mul_nc quot a b) (fun o => length a = deg /\ length b = deg /\ length o = deg /\ vism o)
    (fun e o => forall h u v, vred h e a u -> vred h e b v -> (h -> Hon) -> forallb Fis0 v = false /\ exists w, vred h e o w /\ spec w v = u /\ (h -> w = quot u v)) vcells.
Proof.
  intros Ca Cb Ka Kb HL Hz HQ HH. unfold ext_divide.
  eapply h_bind; [apply (v_is_zero _ _ Hon b); auto|]; cbv beta. { intros Hh. destruct (HL Hh) as [_ HE]. intros ->. cbn in HE. lia. } { intros Hh HP. destruct (HH Hh HP) as (u & v & ? & ? & ?). eauto. }
  intros z Nb. eapply h_bind; [apply (h_assert_is_const lb _ _ Hon z); [now left|]|]; cbv beta.
  { intros Hh [HP R]. destruct (HH Hh HP) as (u & v & Hu & Hv & E & E0). destruct (R True v Hv) as [_ ->]. now rewrite E0. }
  intros [] _. eapply h_weaken; [apply (v_divide_unsafe L Pre Hon quot a b); auto| | | | | |]; cbv beta.
  - intros Hh HP. destruct (HH Hh HP) as (u & v & ? & ? & ? & ?). eauto.
  - intros x Hx. cbn [app]. right. auto.
  - tauto.
  - tauto.
  - auto.
  - intros e o _ [[HP R1] R2] R3 h u v Hu Hv Hh. split; [|eauto]. destruct (R1 h v Hv) as [_ E]. rewrite R2 in E. destruct (forallb Fis0 v); auto. symmetry in E; now apply (F1_neq_0 p Hp) in E.
  - intros o _. apply incl_appl, incl_refl.
Qed.
Lemma v_neg_divide L (Pre : env -> Prop) (Hon : Prop) quot (a b : vec) : vpre L a -> vpre L b -> vism a -> vism b -> (Hon -> length a = deg /\ length b = deg) -> (Hon -> zcap (p:=p) n k) ->
  (forall u v, length u = deg -> length v = deg -> length (quot u v) = deg) ->
  (Hon -> Pre hval -> exists u v, vred True hval a u /\ vred True hval b v /\ spec (quot u v) v = map Fopp u /\ forallb Fis0 v = false) ->
  hcalc L Pre Hon (ext_neg_divide lb m ch deg mul_nc quot a b) (fun o => length a = deg /\ length b = deg /\ length o = deg /\ vism o)
    (fun e o => forall h u v, vred h e a u -> vred h e b v -> (h -> Hon) -> forallb Fis0 v = false /\ exists w, vred h e o w /\ spec w v = map Fopp u /\ (h -> w = quot u v)) vcells.
Proof.
  intros Ca Cb Ka Kb HL Hz HQ HH. unfold ext_neg_divide.
  eapply h_bind; [apply (v_is_zero _ _ Hon b); auto|]; cbv beta. { intros Hh. destruct (HL Hh) as [_ HE]. intros ->. cbn in HE. lia. } { intros Hh HP. destruct (HH Hh HP) as (u & v & ? & ? & ?). eauto. }
  intros z Nb. eapply h_bind; [apply (h_assert_is_const lb _ _ Hon z); [now left|]|]; cbv beta.
  { intros Hh [HP R]. destruct (HH Hh HP) as (u & v & Hu & Hv & E & E0). destruct (R True v Hv) as [_ ->]. now rewrite E0. }
  intros [] _. eapply h_weaken; [apply (v_neg_divide_unsafe L Pre Hon quot a b); auto| | | | | |]; cbv beta.
  - intros Hh HP. destruct (HH Hh HP) as (u & v & ? & ? & ? & ?). eauto.
  - intros x Hx. cbn [app]. right. auto.
  - tauto.
  - tauto.
  - auto.
  - intros e o _ [[HP R1] R2] R3 h u v Hu Hv Hh. split; [|eauto]. destruct (R1 h v Hv) as [_ E]. rewrite R2 in E. destruct (forallb Fis0 v); auto. symmetry in E; now apply (F1_neq_0 p Hp) in E.
  - intros o _. apply incl_appl, incl_refl.
Qed.
End Div.
End ExtProofs.
