(** The witnesses and the linear part of carry_mod and check_carry_mod_to_zero. *)
From Coq Require Import ZArith Znumtheory Lia List Bool Ring.
From Verif Require Import Field Spec Context ContextProofs Utils Logic Gate GateProofs ChainProofs IPProofs BitProofs PowProofs IPComp Derived
  Range RangeProofs RangeProofs2 RangeProofs3 RegionGets Calc CalcH RegionPrev RegionLast BigPrims BigNum BigInt BigSpec BigOps BigSel BigCmp BigSub BigCarry.
Import ListNotations.
Local Open Scope Z_scope.

Section Mod.
Context {p : positive}.
Notation Fp := (F p).
Notation AV := (AV p).
Notation crt := (crt p).
Variable lb : nat.
Notation env := (env (p:=p)).
Notation hcalc := (hcalc lb).
Notation hcalc_at := (hcalc_at lb).
Hypothesis Hp : prime (Z.pos p).
Hypothesis Hlb : (1 <= lb < 64)%nat.
Hypothesis Hlb2 : (2 * lb <= CAPACITY p)%nat.
Add Ring Fring : (F_ring p) (morphism (F_morph p), constants [Fcst]).

(** the value of the [i]-th check limb *)
Definition chk (mv qs al os : list Fp) (i : nat) : Fp :=
  (dot (firstn (S i) qs) (rev (firstn (S i) mv)) - nth i al F0 + nth i os F0)%F.

Lemma chk_snoc mv qs al os q a os' i : (i < length qs)%nat -> (i < length al)%nat -> nth i os' F0 = nth i os F0 ->
  chk mv (qs ++ [q]) (al ++ [a]) os' i = chk mv qs al os i.
Proof. intros H1 H2 H3. unfold chk. rewrite H3, firstn_app, app_nth1 by lia. replace (S i - length qs)%nat with O by lia. cbn [firstn]. now rewrite app_nil_r. Qed.

Definition st3 : Type := list AV * list AV * list AV.
Definition cells3 (s : st3) : list AV := fst (fst s) ++ snd (fst s) ++ snd s.
Lemma h_carry_mod_step L (Pre : env -> Prop) (Hon : Prop) (P : modp p) quot out check a qv ov :
  incl quot L -> incl out L -> incl check L -> In a L -> (length quot < length (mod_vec P))%nat ->
  hcalc L Pre Hon (carry_mod_step P (quot, out, check) (a, (qv, ov)))
    (fun st => exists q o c, st = (quot ++ [q], out ++ [o], check ++ [c]) /\ hval q = qv /\ hval o = ov)
    (fun e st => exists q o c, st = (quot ++ [q], out ++ [o], check ++ [c]) /\
       e c = (dot (map e quot ++ [e q]) (rev (firstn (S (length quot)) (mod_vec P))) - e a + e o)%F) cells3.
Proof.
  intros Hq Ho Hc Ia HL. unfold carry_mod_step.
  set (mv := rev (firstn (S (length quot)) (mod_vec P))).
  assert (Lmv : length mv = S (length quot)). { unfold mv. rewrite rev_length, firstn_length_le; lia. }
  eapply h_bind_at with (x := fst); [apply (h_ipll lb L Pre Hon quot qv mv); auto|apply (leaves_ipll lb)|].
  { rewrite app_length, !map_length. cbn [length]. lia. }
  cbv beta. intros [pr q] Hqv. cbn [fst snd] in *.
  apply at_lift_bind. { intros _ _ HG. rewrite Forall_forall in HG. eexists. apply good_value, HG. now left. }
  intros vp Hvp. apply at_lift_bind. { intros _ _ HG. rewrite Forall_forall in HG. eexists. apply good_value, HG. right. right. auto. }
  intros va Hva. apply av_value_hval in Hvp, Hva. cbv zeta.
  set (reg := [Constant (- F1)%F; Existing a; Witness (vp - va)%F; Constant F1; Witness ov; Witness (vp - va + ov)%F]).
  eapply at_ext with (m' := bind (region_gets reg (-1 :: [2]) [1%nat; 2%nat]) (fun xs => lift (match xs with [c; o] => Some (quot ++ [q], out ++ [o], check ++ [c]) | _ => None end))).
  { intros s. unfold region_gets, gets, mapM, bind. destruct (assign_region reg [-1; 2] s) as [[u s1]|]; [|reflexivity]. rewrite ctx_last_get.
    change (- Z.of_nat 1) with (-1). change (- Z.of_nat 2) with (-2).
    destruct (ctx_get (-1) s1) as [[c s2]|]; [|reflexivity]. destruct (ctx_get (-2) s2) as [[o s3]|]; reflexivity. }
  eapply at_bind; [apply (at_region_gets lb) with (qs := [Witness (vp - va + ov)%F; Witness ov])|].
  - now left.
  - unfold reg. repeat apply Forall_cons; cbn; auto.
  - cbn. lia.
  - cbn. intros o [<-|[]]; lia.
  - repeat apply Forall2_cons; [split; [cbn; lia|reflexivity]|split; [cbn; lia|reflexivity]|constructor].
  - intros _ _. split.
    + intros k [Hk|[]]. assert (k = 2%nat) as -> by lia. cbn. ring.
    + unfold prev_sem. cbn. fold (hval a). rewrite Hvp, Hva. ring.
  - cbv beta. intros xs Hx. inversion Hx as [|? c ? xs1 Hw Hx1]; subst; clear Hx. inversion Hx1 as [|? o ? xs2 Hw1 Hx2]; subst; clear Hx1. inversion Hx2; subst; clear Hx2.
    cbn [wit_is] in Hw, Hw1.
    apply h_ret.
    + exists q, o, c. auto.
    + intros z Hx0. unfold cells3 in Hx0. cbn [fst snd] in Hx0. cbn [app].
      apply in_app_or in Hx0 as [Hx0|Hx0]; [|apply in_app_or in Hx0 as [Hx0|Hx0]]; apply in_app_or in Hx0 as [Hx0|[<-|[]]]; cbn; auto 7.
    + intros e [[Hpre E1] (v & [V1 V2] & PS & F)]. exists q, o, c. split; auto.
      inversion F as [|? ? ? ? Fc F']; subst. inversion F' as [|? ? ? ? Fo _]; subst. cbn in Fc, Fo. rewrite Fc.
      pose proof (V1 0%nat _ eq_refl) as v0. pose proof (V1 1%nat _ eq_refl) as v1. pose proof (V1 3%nat _ eq_refl) as v3. cbn in v0, v1, v3.
      pose proof (V2 2%nat (or_introl eq_refl)) as G. cbn in G. unfold prev_sem in PS.
      rewrite <- G, <- PS, v0, <- v1, v3, <- Fo, <- E1. ring.
Qed.

Lemma h_carry_mod_loop L (Pre : env -> Prop) (Hon : Prop) (P : modp p) al qv ov : incl al L -> length qv = length al -> length ov = length al ->
  (length al <= length (mod_vec P))%nat ->
  hcalc L Pre Hon (foldM (carry_mod_step P) (combine al (combine qv ov)) ([], [], []))
    (fun st => let '(quot, out, check) := st in length quot = length al /\ length out = length al /\ length check = length al /\ map hval quot = qv /\ map hval out = ov)
    (fun e st => let '(quot, out, check) := st in map e check = map (chk (mod_vec P) (map e quot) (map e al) (map e out)) (seq 0 (length al))) cells3.
Proof.
  intros HI Lq Lo HM. set (l := combine al (combine qv ov)).
  assert (Fl : map fst l = al /\ map (fun x => fst (snd x)) l = qv /\ map (fun x => snd (snd x)) l = ov).
  { unfold l. clear HI HM l. revert qv ov Lq Lo. induction al as [|x al IH]; intros [|y qv] [|z ov] H1 H2; cbn in *; try discriminate; auto.
    destruct (IH qv ov) as (A & B & C); [lia|lia|]. rewrite A, B, C. auto. }
  destruct Fl as (Fa & Fq & Fo). assert (Ll : length l = length al). { rewrite <- Fa. now rewrite map_length. }
  eapply h_post; [apply h_foldM with (cs := cells3)
    (I := fun done st => let '(quot, out, check) := st in length quot = length done /\ length out = length done /\ length check = length done /\
            map hval quot = map (fun x => fst (snd x)) done /\ map hval out = map (fun x => snd (snd x)) done)
    (J := fun e done st => let '(quot, out, check) := st in map e check = map (chk (mod_vec P) (map e quot) (map e (map fst done)) (map e out)) (seq 0 (length done)))| | |]; cbv beta.
  - intros done [a [q0 o0]] rest [[quot out] check] E (I1 & I2 & I3 & I4 & I5).
    assert (Hd : (length done < length al)%nat). { rewrite <- Ll, E, app_length. cbn. lia. }
    eapply h_post; [apply (h_carry_mod_step _ _ Hon P quot out check a q0 o0)| | |]; auto.
    + intros x Hx. apply in_or_app. left. unfold cells3. cbn. apply in_or_app; auto.
    + intros x Hx. apply in_or_app. left. unfold cells3. cbn. apply in_or_app; right. apply in_or_app; auto.
    + intros x Hx. apply in_or_app. left. unfold cells3. cbn. apply in_or_app; right. apply in_or_app; auto.
    + apply in_or_app. right. apply HI. rewrite <- Fa, E, map_app. apply in_or_app. right. now left.
    + lia.
    + intros st (q & o & c & -> & Hq & Ho). cbv iota beta. rewrite !app_length, !map_app. cbn [length map fst snd]. rewrite I4, I5, Hq, Ho. repeat split; auto; lia.
    + intros e st _ [Hpre HJ] (q & o & c & -> & E0). cbv iota beta in *. rewrite !app_length, !map_app. cbn [length map fst snd]. rewrite Nat.add_1_r, seq_S, map_app. cbn [map].
      f_equal.
      * rewrite HJ. apply map_ext_in. intros i Hi. apply in_seq in Hi. symmetry. apply chk_snoc; rewrite ?map_length; try lia.
        rewrite app_nth1; auto. rewrite map_length. lia.
      * f_equal. rewrite E0. unfold chk. cbn [Nat.add].
        rewrite (firstn_all2 (map e quot ++ [e q])) by (rewrite app_length, map_length; cbn; lia).
        rewrite (app_nth2 (map e (map fst done))), (app_nth2 (map e out)) by (rewrite !map_length; lia). rewrite !map_length, I2, I1, !Nat.sub_diag. reflexivity.
    + intros st _ x Hx. apply in_or_app; auto.
  - repeat split.
  - intros e _. reflexivity.
  - intros x [].
  - intros [[quot out] check] (I1 & I2 & I3 & I4 & I5). rewrite Ll in *. rewrite I4, I5, Fq, Fo. auto.
  - intros e [[quot out] check] _ _. rewrite Fa, Ll. auto.
  - intros st _ x Hx. apply in_or_app; auto.
Qed.

Definition st2 : Type := list AV * list AV.
Definition cells2 (s : st2) : list AV := fst s ++ snd s.
Lemma h_check_mod_step L (Pre : env -> Prop) (Hon : Prop) (P : modp p) quot check a qv :
  incl quot L -> incl check L -> In a L -> (length quot < length (mod_vec P))%nat ->
  hcalc L Pre Hon (check_mod_step P (quot, check) (a, qv))
    (fun st => exists q c, st = (quot ++ [q], check ++ [c]) /\ hval q = qv)
    (fun e st => exists q c, st = (quot ++ [q], check ++ [c]) /\
       e c = (dot (map e quot ++ [e q]) (rev (firstn (S (length quot)) (mod_vec P))) - e a)%F) cells2.
Proof.
  intros Hq Hc Ia HL. unfold check_mod_step.
  set (mv := rev (firstn (S (length quot)) (mod_vec P))).
  assert (Lmv : length mv = S (length quot)). { unfold mv. rewrite rev_length, firstn_length_le; lia. }
  eapply h_bind_at with (x := fst); [apply (h_ipll lb L Pre Hon quot qv mv); auto|apply (leaves_ipll lb)|].
  { rewrite app_length, !map_length. cbn [length]. lia. }
  cbv beta. intros [pr q] Hqv. cbn [fst snd] in *.
  apply at_lift_bind. { intros _ _ HG. rewrite Forall_forall in HG. eexists. apply good_value, HG. now left. }
  intros vp Hvp. apply at_lift_bind. { intros _ _ HG. rewrite Forall_forall in HG. eexists. apply good_value, HG. right. right. auto. }
  intros va Hva. apply av_value_hval in Hvp, Hva.
  eapply at_bind; [apply (at_region_last lb) with (offs := []) (q := Witness (vp - va)%F)|].
  - now left.
  - repeat apply Forall_cons; cbn; auto.
  - cbn. lia.
  - intros o [].
  - reflexivity.
  - intros _ _. split; [intros k []|]. unfold prev_sem. cbn. fold (hval a). rewrite Hvp, Hva. ring.
  - cbv beta. intros c Hw. apply h_ret.
    + exists q, c. auto.
    + intros x Hx0. unfold cells2 in Hx0. cbn [fst snd] in Hx0. cbn [app].
      apply in_app_or in Hx0 as [Hx0|Hx0]; apply in_app_or in Hx0 as [Hx0|[<-|[]]]; cbn; auto 7.
    + intros e [[Hpre E1] (v & [V1 V2] & PS & F)]. exists q, c. split; auto. cbn in F. rewrite F.
      pose proof (V1 0%nat _ eq_refl) as v0. pose proof (V1 1%nat _ eq_refl) as v1. cbn in v0, v1. unfold prev_sem in PS.
      rewrite <- PS, v0, <- v1, <- E1. ring.
Qed.
Lemma h_check_mod_loop L (Pre : env -> Prop) (Hon : Prop) (P : modp p) al qv : incl al L -> length qv = length al ->
  (length al <= length (mod_vec P))%nat ->
  hcalc L Pre Hon (foldM (check_mod_step P) (combine al qv) ([], []))
    (fun st => let '(quot, check) := st in length quot = length al /\ length check = length al /\ map hval quot = qv)
    (fun e st => let '(quot, check) := st in map e check = map (chk (mod_vec P) (map e quot) (map e al) []) (seq 0 (length al))) cells2.
Proof.
  intros HI Lq HM. set (l := combine al qv).
  assert (Fl : map fst l = al /\ map snd l = qv).
  { unfold l. clear HI HM l. revert qv Lq. induction al as [|x al IH]; intros [|y qv] H1; cbn in *; try discriminate; auto.
    destruct (IH qv) as (A & B); [lia|]. rewrite A, B. auto. }
  destruct Fl as (Fa & Fq). assert (Ll : length l = length al). { rewrite <- Fa. now rewrite map_length. }
  eapply h_post; [apply h_foldM with (cs := cells2)
    (I := fun done st => let '(quot, check) := st in length quot = length done /\ length check = length done /\ map hval quot = map snd done)
    (J := fun e done st => let '(quot, check) := st in map e check = map (chk (mod_vec P) (map e quot) (map e (map fst done)) []) (seq 0 (length done)))| | |]; cbv beta.
  - intros done [a q0] rest [quot check] E (I1 & I3 & I4).
    assert (Hd : (length done < length al)%nat). { rewrite <- Ll, E, app_length. cbn. lia. }
    eapply h_post; [apply (h_check_mod_step _ _ Hon P quot check a q0)| | |]; auto.
    + intros x Hx. apply in_or_app. left. unfold cells2. cbn. apply in_or_app; auto.
    + intros x Hx. apply in_or_app. left. unfold cells2. cbn. apply in_or_app; auto.
    + apply in_or_app. right. apply HI. rewrite <- Fa, E, map_app. apply in_or_app. right. now left.
    + lia.
    + intros st (q & c & -> & Hq). cbv iota beta. rewrite !app_length, !map_app. cbn [length map fst snd]. rewrite I4, Hq. repeat split; auto; lia.
    + intros e st _ [Hpre HJ] (q & c & -> & E0). cbv iota beta in *. rewrite !app_length, !map_app. cbn [length map fst snd]. rewrite Nat.add_1_r, seq_S, map_app. cbn [map].
      f_equal.
      * rewrite HJ. apply map_ext_in. intros i Hi. apply in_seq in Hi. symmetry. apply chk_snoc; rewrite ?map_length; auto; lia.
      * f_equal. rewrite E0. unfold chk. cbn [Nat.add].
        rewrite (firstn_all2 (map e quot ++ [e q])) by (rewrite app_length, map_length; cbn; lia).
        rewrite (app_nth2 (map e (map fst done))) by (rewrite !map_length; lia). rewrite !map_length, I1, !Nat.sub_diag. cbn [nth]. destruct (length done); cbn [nth]; ring.
    + intros st _ x Hx. apply in_or_app; auto.
  - repeat split.
  - intros e _. reflexivity.
  - intros x [].
  - intros [quot check] (I1 & I3 & I4). rewrite Ll in *. rewrite I4, Fq. auto.
  - intros e [quot check] _ _. rewrite Fa, Ll. auto.
  - intros st _ x Hx. apply in_or_app; auto.
Qed.

Lemma nth_map_seq {A} (f : nat -> A) k i d : (i < k)%nat -> nth i (map f (seq 0 k)) d = f i.
Proof. intros H. rewrite (nth_indep _ d (f O)) by (rewrite map_length, seq_length; lia). rewrite map_nth, seq_nth by lia. reflexivity. Qed.
(** the check limbs as integers *)
Lemma chk_of_Z ms qs al os : length qs = length al -> length ms = length al -> length os = length al ->
  map (chk (map (of_Z p) ms) (map (of_Z p) qs) (map (of_Z p) al) (map (of_Z p) os)) (seq 0 (length al)) =
  map (of_Z p) (map2 Z.add (map2 Z.sub (tmul qs ms) al) os).
Proof.
  intros L1 L2 L3.
  assert (G : forall (l1 l2 : list Fp), length l1 = length l2 -> (forall i, (i < length l1)%nat -> nth i l1 F0 = nth i l2 F0) -> l1 = l2).
  { intros l1 l2 HL H. apply (nth_ext _ _ F0 F0); auto. }
  assert (LL : length (map2 Z.add (map2 Z.sub (tmul qs ms) al) os) = length al).
  { rewrite map2_length; rewrite map2_length; rewrite ?tmul_length; lia. }
  apply G; rewrite !map_length, seq_length; [lia|]. intros i Hi.
  rewrite nth_map_seq by lia.
  change (F0 : Fp) with (of_Z p 0). rewrite map_nth.
  assert (N : forall (f : Z -> Z -> Z) (a b : list Z) j, length a = length b -> (j < length a)%nat -> nth j (map2 f a b) 0 = f (nth j a 0) (nth j b 0)).
  { clear. intros f. induction a as [|x a IH]; intros [|y b] j H1 H2; cbn in *; try discriminate; try lia. destruct j; auto. apply IH; lia. }
  rewrite N, N by (rewrite ?map2_length; rewrite ?tmul_length; lia).
  unfold chk. change (F0 : Fp) with (of_Z p 0). rewrite !map_nth.
  rewrite <- !map_firstn', <- map_rev, dot_of_Z. unfold tmul. rewrite nth_map_seq by lia. unfold conv. now rewrite of_Z_add, of_Z_sub.
Qed.
Lemma chk_nil mv qs al k : chk mv qs al [] k = chk mv qs al (map (of_Z p) (repeat 0 (length al))) k.
Proof.
  unfold chk. f_equal. change (F0 : Fp) with (of_Z p 0). rewrite map_nth, nth_repeat. destruct k; reflexivity.
Qed.

(** range checks *)
Lemma h_rc_out L (Pre : env -> Prop) (Hon : Prop) k n lbits out : incl out L -> length out = k ->
  (Hon -> Pre hval -> (n <= CAPACITY p)%nat /\ (lbits <= CAPACITY p)%nat /\
     forall i a, nth_error out i = Some a -> val (hval a) < 2 ^ Z.of_nat (if Nat.eqb i (k - 1) then lbits else n)) ->
  hcalc L Pre Hon (rc_out lb k n lbits out) (fun _ => True)
    (fun e _ => forall i a, nth_error out i = Some a -> val (e a) < 2 ^ Z.of_nat (if Nat.eqb i (k - 1) then lbits else n)) (fun _ => []).
Proof.
  intros HI HL HH. unfold rc_out.
  assert (G : forall ia, In ia (combine (seq 0 (length out)) out) -> nth_error out (fst ia) = Some (snd ia)).
  { clear. enough (forall s l (ia : nat * AV), In ia (combine (seq s (length l)) l) -> (s <= fst ia)%nat /\ nth_error l (fst ia - s) = Some (snd ia)) as H.
    { intros ia Hia. apply H in Hia as [_ Hia]. now rewrite Nat.sub_0_r in Hia. }
    intros s l. revert s. induction l as [|x l IH]; intros s ia H; [destruct H|]. cbn in H. destruct H as [<-|H].
    - cbn. rewrite Nat.sub_diag. auto.
    - apply IH in H as [H1 H2]. split; [lia|]. replace (fst ia - s)%nat with (S (fst ia - S s)) by lia. exact H2. }
  assert (G2 : forall i a, nth_error out i = Some a -> In (i, a) (combine (seq 0 (length out)) out)).
  { clear. intros i a. enough (forall s l, nth_error l i = Some a -> In (s + i, a)%nat (combine (seq s (length l)) l)) as H by (intros; now apply (H O)).
    intros s l. revert s i. induction l as [|x l IH]; intros s [|i] H; cbn in *; try discriminate.
    - injection H as ->. left. now rewrite Nat.add_0_r.
    - right. rewrite <- Nat.add_succ_comm. now apply IH. }
  eapply h_post; [apply h_iterM with (R := fun e ix => val (e (snd ix)) < 2 ^ Z.of_nat (if Nat.eqb (fst ix) (k - 1) then lbits else n))| | |]; cbv beta; auto.
  - intros [i a] Hia. pose proof (G _ Hia) as Hn. cbn [fst snd] in *. apply (h_range_check lb Hp Hlb Hlb2).
    + apply HI. eapply nth_error_In; eauto.
    + intros Hh Hpre. destruct (HH Hh Hpre) as (H1 & H2 & H3). split; [destruct (Nat.eqb i (k - 1)); auto|]. now apply H3.
  - intros e [] _ _ HF i a Hia. rewrite Forall_forall in HF. apply (HF _ (G2 _ _ Hia)).
  - intros [] _ x [].
Qed.
Lemma h_rc_quot L (Pre : env -> Prop) (Hon : Prop) k n lbits bases quot : incl quot L -> length quot = k -> nth_error bases 1 = Some (of_Z p (2 ^ Z.of_nat n)) ->
  (Hon -> Pre hval -> (n + 1 <= CAPACITY p)%nat /\ (lbits + 1 <= CAPACITY p)%nat /\
     forall i a, nth_error quot i = Some a -> exists z, hval a = of_Z p z /\ let b := if Nat.eqb i (k - 1) then lbits else n in - 2 ^ Z.of_nat b <= z < 2 ^ Z.of_nat b) ->
  hcalc L Pre Hon (rc_quot lb k n lbits bases quot) (fun _ => True)
    (fun e _ => forall i a, nth_error quot i = Some a -> exists z, e a = of_Z p z /\ let b := if Nat.eqb i (k - 1) then lbits else n in - 2 ^ Z.of_nat b <= z < 2 ^ Z.of_nat b) (fun _ => []).
Proof.
  intros HI HL HB HH. unfold rc_quot.
  assert (G : forall ia, In ia (combine (seq 0 (length quot)) quot) -> nth_error quot (fst ia) = Some (snd ia)).
  { clear. enough (forall s l (ia : nat * AV), In ia (combine (seq s (length l)) l) -> (s <= fst ia)%nat /\ nth_error l (fst ia - s) = Some (snd ia)) as H.
    { intros ia Hia. apply H in Hia as [_ Hia]. now rewrite Nat.sub_0_r in Hia. }
    intros s l. revert s. induction l as [|x l IH]; intros s ia H; [destruct H|]. cbn in H. destruct H as [<-|H].
    - cbn. rewrite Nat.sub_diag. auto.
    - apply IH in H as [H1 H2]. split; [lia|]. replace (fst ia - s)%nat with (S (fst ia - S s)) by lia. exact H2. }
  assert (G2 : forall i a, nth_error quot i = Some a -> In (i, a) (combine (seq 0 (length quot)) quot)).
  { clear. intros i a. enough (forall s l, nth_error l i = Some a -> In (s + i, a)%nat (combine (seq s (length l)) l)) as H by (intros; now apply (H O)).
    intros s l. revert s i. induction l as [|x l IH]; intros s [|i] H; cbn in *; try discriminate.
    - injection H as ->. left. now rewrite Nat.add_0_r.
    - right. rewrite <- Nat.add_succ_comm. now apply IH. }
  eapply h_post; [apply h_iterM with (R := fun e ix => exists z, e (snd ix) = of_Z p z /\ let b := if Nat.eqb (fst ix) (k - 1) then lbits else n in - 2 ^ Z.of_nat b <= z < 2 ^ Z.of_nat b)| | |]; cbv beta; auto.
  - intros [i a] Hia. pose proof (G _ Hia) as Hn. cbn [fst snd] in *. cbv zeta. set (b := if Nat.eqb i (k - 1) then lbits else n) in *.
    pose proof (pow2_pos b) as HPb.
    apply h_lift_bind. { intros Hh Hpre _. destruct (HH Hh Hpre) as (H1 & H2 & _). destruct (Nat.eqb i (k - 1)); [|eauto]. eexists. apply (pow_nth Hp). unfold NUM_BITS, b. lia. }
    intros base Hb. assert (base = of_Z p (2 ^ Z.of_nat b)) as ->.
    { destruct (Nat.eqb i (k - 1)) eqn:Ei; [apply (pow_nth_inv Hp) in Hb as [_ ->]; reflexivity|]. unfold b. congruence. }
    eapply h_bind; [apply calc_h, (calc_add lb L Pre (Existing a) (Constant (of_Z p (2 ^ Z.of_nat b)))); cbn; auto; apply HI; eapply nth_error_In; eauto|].
    cbv beta. intros qs _. eapply h_post; [apply (h_range_check lb Hp Hlb Hlb2)| | |]; cbv beta; auto.
    + now left.
    + intros Hh [Hpre E]. destruct (HH Hh Hpre) as (H1 & H2 & H3). destruct (H3 i a Hn) as (z & Ez & Hz). fold b in Hz. cbv zeta in Hz.
      assert (HC : (b + 1 <= CAPACITY p)%nat). { unfold b. destruct (Nat.eqb i (k - 1)); auto. } split; auto.
      pose proof (pow2_le_p lb Hlb Hlb2 (b + 1) HC) as H4. rewrite E. cbn [qe]. rewrite Ez, <- of_Z_add. rewrite pow2_add in *. change (2 ^ Z.of_nat 1) with 2 in *.
      rewrite val_of_Z_small; lia.
    + intros e [] _ [_ E] HR. cbn [qe] in E. rewrite E in HR. exists (val (e a + of_Z p (2 ^ Z.of_nat b))%F - 2 ^ Z.of_nat b). split.
      * rewrite of_Z_sub, of_Z_val. ring.
      * rewrite pow2_add in HR. change (2 ^ Z.of_nat 1) with 2 in HR. pose proof (val_bounds p (e a + of_Z p (2 ^ Z.of_nat b))%F). lia.
    + intros [] _ x [].
  - intros e [] _ _ HF i a Hia. rewrite Forall_forall in HF. apply (HF _ (G2 _ _ Hia)).
  - intros [] _ x [].
Qed.
End Mod.
