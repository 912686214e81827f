(** Subtraction with borrows and comparison of big integers. *)
From Coq Require Import ZArith Znumtheory Lia List Bool Ring.
From Verif Require Import Field Spec Context ContextProofs Utils Logic Gate GateProofs ChainProofs IPProofs BitProofs PowProofs IPComp Derived
  Range RangeProofs RangeProofs2 RangeProofs3 RegionGets Calc CalcH RegionPrev RegionLast BigPrims BigNum BigInt BigSpec BigOps BigSel BigCmp.
Import ListNotations.
Local Open Scope Z_scope.

Section Sub.
Context {p : positive}.
Notation Fp := (F p).
Notation AV := (AV p).
Notation crt := (crt p).
Variable lb : nat.
Notation env := (env (p:=p)).
Notation hcalc := (hcalc lb).
Hypothesis Hp : prime (Z.pos p).
Hypothesis Hlb : (1 <= lb < 64)%nat.
Hypothesis Hlb2 : (2 * lb <= CAPACITY p)%nat.
Add Ring Fring : (F_ring p) (morphism (F_morph p), constants [Fcst]).

Definition ev (e : env) (n : nat) (l : list AV) : Z := undigits n (map (fun a => val (e a)) l).
Definition lt_n (e : env) (n : nat) (l : list AV) : Prop := Forall (fun a => val (e a) < 2 ^ Z.of_nat n) l.
Definition lwidth (n : nat) : Prop := (pad_bits lb n + lb <= CAPACITY p)%nat /\ (pad_bits lb (n + 1) + lb <= CAPACITY p)%nat.

(** the arithmetic of one step *)
Lemma sub_arith B W a b c A D (br : bool) : 0 < B -> 0 <= a < B -> 0 <= b < B -> 0 <= A < W -> 0 <= D < W -> br = (A <? D) -> c = b + (if br then 1 else 0) ->
  let lt := a <? c in let o := a + (if lt then B else 0) - c in
  0 <= o < B /\ lt = (A + W * a <? D + W * b) /\
  (A - D + (if br then W else 0)) + W * o = (A + W * a) - (D + W * b) + (if lt then W * B else 0).
Proof.
  intros HB Ha Hb HA HD Ebr Ec lt o. subst lt o.
  subst br c. destruct (Z.ltb_spec A D) as [L|L].
  - destruct (Z.ltb_spec a (b + 1)) as [L2|L2]; (split; [lia|]); (split; [|lia]); symmetry; [apply Z.ltb_lt|apply Z.ltb_ge]; nia.
  - rewrite Z.add_0_r. destruct (Z.ltb_spec a b) as [L2|L2]; (split; [lia|]); (split; [|lia]); symmetry; [apply Z.ltb_lt|apply Z.ltb_ge]; nia.
Qed.

Definition bor (st : list AV * option AV) (e : env) : Fp := match snd st with Some b => e b | None => F0 end.
Definition scells (st : list AV * option AV) : list AV := match snd st with Some b => b :: fst st | None => fst st end.

Lemma qvals_eq (l : list (qcell p)) i q : nth_error l i = Some q -> qvals l i = aeval (qadv q).
Proof. intros H. unfold qvals. apply nth_error_nth. now rewrite nth_error_map, H. Qed.

Lemma lt_width n w x (Hw : (n <= w)%nat) : val x < 2 ^ Z.of_nat n -> val (x : Fp) < 2 ^ Z.of_nat (pad_bits lb w).
Proof. intros H. pose proof (pow2_le _ _ Hw). pose proof (pow2_le _ _ (pad_ge lb Hlb Hlb2 w)). lia. Qed.
Lemma h_sub_step L (Pre : env -> Prop) (Hon : Prop) n st a b : (1 <= n)%nat -> (n + 2 <= CAPACITY p)%nat -> In a L -> In b L -> incl (scells st) L ->
  (Hon -> Pre hval -> lwidth n /\ val (hval a) < 2 ^ Z.of_nat n /\ val (hval b) < 2 ^ Z.of_nat n /\ is_bit (bor st hval)) ->
  hcalc L Pre Hon (sub_step lb n (of_Z p (2 ^ Z.of_nat n)) st (a, b)) (fun st' => exists o lt, st' = (fst st ++ [o], Some lt))
    (fun e st' => exists o lt, st' = (fst st ++ [o], Some lt) /\ forall br, bor st e = fbool br -> val (e a) < 2 ^ Z.of_nat n -> val (e b) < 2 ^ Z.of_nat n ->
        let c := val (e b) + (if br : bool then 1 else 0) in
        e lt = fbool (val (e a) <? c) /\ val (e o) = val (e a) + (if val (e a) <? c then 2 ^ Z.of_nat n else 0) - c) scells.
Proof.
  intros Hn1 Hn2 Ia Ib HL HH. unfold sub_step.
  assert (B2 : 2 ^ Z.of_nat n + 2 ^ Z.of_nat n < Z.pos p).
  { pose proof (pow2_le_p lb Hlb Hlb2 (n + 2) Hn2) as H. rewrite pow2_add in H. change (2 ^ Z.of_nat 2) with 4 in H. pose proof (pow2_pos n). lia. }
  pose proof (pow2_pos n) as HB.
  eapply h_bind with (P1 := fun _ => True) (c1 := fun bl => [fst bl; snd bl])
    (R1 := fun e bl => forall br, bor st e = fbool br -> val (e a) < 2 ^ Z.of_nat n -> val (e b) < 2 ^ Z.of_nat n ->
        let c := val (e b) + (if br : bool then 1 else 0) in
        val (e (fst bl)) = c /\ e (snd bl) = fbool (val (e a) <? c)).
  { unfold bor in *. unfold scells in *. destruct (snd st) as [br|] eqn:Es.
    - eapply h_bind; [apply calc_h, (calc_add lb L Pre (Existing b) (Existing br)); cbn; auto; apply HL; now left|]. cbv beta. intros c _. cbn [qe].
      eapply h_bind.
      { apply (h_is_less_than lb Hp Hlb Hlb2 _ _ Hon (Existing a) (Existing c) (n + 1)); cbn [qin].
        - apply in_or_app; auto.
        - now left.
        - intros Hh [Hpre Ec]. destruct (HH Hh Hpre) as ((W1 & W2) & Ha & Hb & Hbit). cbn [qe]. split; auto.
          split; [eapply (lt_width n); eauto; lia|]. rewrite Ec.
          pose proof (pow2_le _ _ (pad_ge lb Hlb Hlb2 (n + 1))) as Q. rewrite pow2_add in Q. change (2 ^ Z.of_nat 1) with 2 in Q.
          rewrite val_add. destruct Hbit as [->| ->]; rewrite ?(val_0 p), ?(val_1 _ Hp); rewrite Z.mod_small; pose proof (val_bounds p (hval b)); lia. }
      cbv beta. intros lt _. apply h_ret; auto.
      + intros x [<-|[<-|[]]]; cbn; auto.
      + cbn [qe fst snd]. intros e [[Hpre Ec] Hlt] b' Eb Ha Hb.
        assert (EC : val (e c) = val (e b) + (if b' then 1 else 0)).
        { rewrite Ec, Eb, val_add. destruct b'; cbn [fbool]; rewrite ?(val_0 p), ?(val_1 _ Hp); rewrite Z.mod_small; pose proof (val_bounds p (e b)); lia. }
        split; auto. rewrite <- EC. apply Hlt.
        * eapply (lt_width n); eauto; lia.
        * rewrite EC. pose proof (pow2_le _ _ (pad_ge lb Hlb Hlb2 (n + 1))) as Q. rewrite pow2_add in Q. change (2 ^ Z.of_nat 1) with 2 in Q. destruct b'; lia.
    - eapply h_bind.
      { apply (h_is_less_than lb Hp Hlb Hlb2 _ _ Hon (Existing a) (Existing b) n); cbn [qin]; auto.
        intros Hh Hpre. destruct (HH Hh Hpre) as ((W1 & W2) & Ha & Hb & Hbit). cbn [qe]. split; auto.
        split; [eapply (lt_width n); eauto|]. apply Z.lt_le_incl. eapply (lt_width n); eauto. }
      cbv beta. intros lt _. apply h_ret; auto.
      + intros x [<-|[<-|[]]]; cbn; auto.
      + cbn [qe fst snd]. intros e [Hpre Hlt] b' Eb Ha Hb.
        assert (b' = false) as ->. { destruct b'; auto. cbn [fbool] in Eb. exfalso. apply (f_equal val) in Eb. rewrite (val_0 p), (val_1 _ Hp) in Eb. discriminate. }
        rewrite Z.add_0_r. split; auto. apply Hlt; [eapply (lt_width n); eauto|]. apply Z.lt_le_incl. eapply (lt_width n); eauto. }
  cbv beta. intros [bot lt] _. cbn [fst snd].
  apply h_lift_bind. { intros _ _ HG. rewrite Forall_forall in HG. eexists. apply good_value, HG. cbn; auto. }
  intros vl Hvl. apply h_lift_bind. { intros _ _ HG. rewrite Forall_forall in HG. eexists. apply good_value, HG. cbn; auto. }
  intros va Hva. apply h_lift_bind. { intros _ _ HG. rewrite Forall_forall in HG. eexists. apply good_value, HG. cbn; auto. }
  intros vb Hvb. apply av_value_hval in Hvl, Hva, Hvb.
  eapply h_bind.
  { apply (h_region_last lb) with (q := Witness (of_Z p (2 ^ Z.of_nat n) * vl + va - vb)%F).
    - repeat apply Forall_cons; cbn; auto.
    - cbn. intros o [<-|[<-|[]]]; lia.
    - reflexivity.
    - intros _ _ k Hk. cbn in Hk. destruct Hk as [Hk|[Hk|[]]].
      + assert (k = 0%nat) as -> by lia. cbn. fold (hval a). fold (hval lt). rewrite Hvl, Hva. ring.
      + assert (k = 3%nat) as -> by lia. cbn. fold (hval bot). rewrite Hvb. ring. }
  cbv beta. intros o _. apply h_ret.
  - eauto.
  - cbn. intros x [<-|Hx]; [cbn; auto|]. apply in_app_or in Hx as [Hx|[<-|[]]]; [|cbn; auto].
    right. right. right. apply HL. unfold scells. destruct (snd st); [now right|auto].
  - intros e [[Hpre H1] (v & [V1 V2] & Eo)]. exists o, lt. split; auto. intros br Hbr Ha Hb. destruct (H1 br Hbr Ha Hb) as [E1 E2]. cbv zeta.
    split; auto.
    pose proof (V1 0%nat _ eq_refl) as v0. pose proof (V1 1%nat _ eq_refl) as v1. pose proof (V1 2%nat _ eq_refl) as v2.
    pose proof (V1 4%nat _ eq_refl) as v4. pose proof (V1 5%nat _ eq_refl) as v5. cbn in v0, v1, v2, v4, v5, Eo.
    pose proof (V2 0%nat (or_introl eq_refl)) as G1. pose proof (V2 3%nat (or_intror (or_introl eq_refl))) as G2. cbn in G1, G2.
    rewrite <- G1, <- v0, <- v1, v2, v4, <- v5 in G2. rewrite Eo, <- G2, E2.
    set (c := val (e b) + (if br then 1 else 0)) in *.
    assert (EB : e bot = of_Z p c). { rewrite <- E1. symmetry. apply of_Z_val. }
    assert (EA : e a = of_Z p (val (e a))). { symmetry. apply of_Z_val. }
    rewrite EB. rewrite EA at 1.
    replace (fbool (val (e a) <? c)) with (of_Z p (if val (e a) <? c then 1 else 0)) by (destruct (val (e a) <? c); reflexivity).
    replace (- F1)%F with (of_Z p (-1)) by (change (-1) with (- (1)); rewrite of_Z_opp; reflexivity).
    rewrite <- !of_Z_mul, <- !of_Z_add.
    pose proof (val_bounds p (e a)). pose proof (val_bounds p (e b)).
    assert (0 <= c <= 2 ^ Z.of_nat n) by (unfold c; destruct br; lia).
    rewrite val_of_Z_small; destruct (Z.ltb_spec (val (e a)) c); lia.
Qed.

Lemma h_big_sub L (Pre : env -> Prop) (Hon : Prop) n a b : (1 <= n)%nat -> (n + 2 <= CAPACITY p)%nat -> incl a L -> incl b L ->
  (Hon -> length a = length b /\ a <> []) -> (Hon -> Pre hval -> lwidth n /\ lt_n hval n a /\ lt_n hval n b) ->
  hcalc L Pre Hon (big_sub lb a b n (of_Z p (2 ^ Z.of_nat n))) (fun r => length (o_limbs (fst r)) = length a /\ o_bits (fst r) = n /\ length a = length b /\ a <> [])
    (fun e r => lt_n e n a -> lt_n e n b ->
        let lt := ev e n a <? ev e n b in
        e (snd r) = fbool lt /\ lt_n e n (o_limbs (fst r)) /\
        ev e n (o_limbs (fst r)) = ev e n a - ev e n b + (if lt then 2 ^ Z.of_nat (n * length a) else 0)) (fun r => snd r :: o_limbs (fst r)).
Proof.
  intros Hn1 Hn2 Ia Ib HL HH. unfold big_sub. apply h_assert_bind. { intros Hh _. apply Nat.eqb_eq, HL, Hh. }
  intros Hlen. apply Nat.eqb_eq in Hlen.
  set (fa := map (@fst AV AV)). set (fb := map (@snd AV AV)).
  eapply h_bind with (P1 := fun st => length (fst st) = length a /\ (snd st = None <-> combine a b = [])) (c1 := scells)
    (R1 := fun e st => lt_n e n a -> lt_n e n b ->
       let lt := ev e n a <? ev e n b in bor st e = fbool lt /\ lt_n e n (fst st) /\
       ev e n (fst st) = ev e n a - ev e n b + (if lt then 2 ^ Z.of_nat (n * length a) else 0)).
  { eapply h_post; [apply h_foldM with (I := fun done st => length (fst st) = length done /\ (snd st = None <-> done = [])) (cs := scells)
      (J := fun e done st => lt_n e n (fa done) -> lt_n e n (fb done) ->
       let lt := ev e n (fa done) <? ev e n (fb done) in bor st e = fbool lt /\ lt_n e n (fst st) /\
       ev e n (fst st) = ev e n (fa done) - ev e n (fb done) + (if lt then 2 ^ Z.of_nat (n * length done) else 0))| | |]; cbv beta.
    - intros done [x y] rest st E [I1 I2].
      assert (Hxy : In x a /\ In y b).
      { assert (In (x, y) (combine a b)) by (rewrite E; apply in_or_app; right; now left). split; [eapply in_combine_l|eapply in_combine_r]; eauto. }
      assert (Hd : incl (fa done) a /\ incl (fb done) b).
      { split; intros z Hz; apply in_map_iff in Hz as ([u w] & <- & Hz); assert (In (u, w) (combine a b)) by (rewrite E; apply in_or_app; now left);
          cbn; [eapply in_combine_l|eapply in_combine_r]; eauto. }
      eapply h_post; [apply (h_sub_step (scells st ++ L) _ Hon n st x y)| | |]; auto.
      + apply in_or_app; right. apply Ia, Hxy.
      + apply in_or_app; right. apply Ib, Hxy.
      + intros z Hz. apply in_or_app; auto.
      + intros Hh [Hpre HJ]. destruct (HH Hh Hpre) as (W & Ha & Hb). unfold lt_n in *. rewrite Forall_forall in Ha, Hb. split; auto.
        split; [apply Ha, Hxy|]. split; [apply Hb, Hxy|].
        assert (A1 : Forall (fun a => val (hval a) < 2 ^ Z.of_nat n) (fa done)) by (apply Forall_forall; intros z Hz; apply Ha, Hd, Hz).
        assert (A2 : Forall (fun a => val (hval a) < 2 ^ Z.of_nat n) (fb done)) by (apply Forall_forall; intros z Hz; apply Hb, Hd, Hz).
        destruct (HJ A1 A2) as (EB & _ & _). rewrite EB. unfold is_bit. destruct (_ <? _); cbn; auto.
      + intros st' (o & lt & ->). cbn [fst snd]. rewrite !app_length. cbn [length]. split; [lia|]. split; [discriminate|]. intros H. destruct done; discriminate.
      + intros e st' _ [Hpre HJ] (o & lt & -> & HS). unfold fa, fb. rewrite !map_app. cbn [map fst snd]. intros Ha Hb.
        unfold lt_n in *. apply Forall_app in Ha as [Ha Ha']. apply Forall_app in Hb as [Hb Hb'].
        inversion Ha' as [|? ? Ha2 _]. inversion Hb' as [|? ? Hb2 _]. subst.
        destruct (HJ Ha Hb) as (J1 & J2 & J3). specialize (HS _ J1 Ha2 Hb2) as [S1 S2].
        unfold ev in *. rewrite !map_app, !U_app, !map_length. cbn [map undigits]. rewrite !Z.mul_0_r, !Z.add_0_r.
        assert (Bd : forall (l : list AV), Forall (fun a => val (e a) < 2 ^ Z.of_nat n) l ->
          0 <= undigits n (map (fun a => val (e a)) l) < 2 ^ Z.of_nat (n * length l)).
        { intros l Hl. pose proof (undigits_bound n (map (fun a => val (e a)) l)) as H. rewrite map_length in H. apply H. apply Forall_map.
          eapply Forall_impl; [|exact Hl]. cbv beta. intros z Hz. split; auto. apply val_bounds. }
        pose proof (Bd _ Ha) as BA. pose proof (Bd _ Hb) as BB. fold fa in BA, J1, J3 |- *. fold fb in BB, J1, J3 |- *.
        unfold fa at 3 in BA. unfold fb at 3 in BB. rewrite map_length in BA, BB.
        pose proof (sub_arith (2 ^ Z.of_nat n) (2 ^ Z.of_nat (n * length done)) (val (e x)) (val (e y)) _ _ _ _ (pow2_pos n)
          (conj (proj1 (val_bounds p (e x))) Ha2) (conj (proj1 (val_bounds p (e y))) Hb2) BA BB eq_refl eq_refl) as (T1 & T2 & T3).
        cbv zeta in *. unfold bor at 1; cbn [snd fst]. rewrite S1, <- T2. split; [reflexivity|]. split.
        * apply Forall_app. split; auto. constructor; auto. rewrite S2. lia.
        * rewrite I1, J3, S2. rewrite app_length. cbn [length]. replace (n * (length done + 1))%nat with (n * length done + n)%nat by lia.
          rewrite pow2_add. rewrite T3. reflexivity.
      + intros st' _ z Hz. apply in_or_app; auto.
    - split; [auto|]. split; auto.
    - intros e _ _ _. cbv zeta. unfold ev, bor, lt_n. cbn. auto.
    - intros z [].
    - intros st [I1 I2]. rewrite combine_length, <- Hlen, Nat.min_id in I1. auto.
    - intros e st _ Hpre HJ. unfold fa, fb in HJ. 
      assert (F1 : map fst (combine a b) = a /\ map snd (combine a b) = b).
      { clear - Hlen. revert b Hlen. induction a as [|x l IH]; intros [|y l'] H; cbn in *; try discriminate; auto.
        destruct (IH l') as [A B]; [lia|]. rewrite A, B. auto. }
      destruct F1 as [-> ->] in HJ. rewrite combine_length, <- Hlen, Nat.min_id in HJ. exact HJ.
    - intros st _ z Hz. apply in_or_app; auto. }
  cbv beta. intros st [I1 I2]. apply h_lift_bind.
  { intros Hh _ _. destruct (snd st) as [br|]; [eauto|]. apply proj1 in I2. specialize (I2 eq_refl). destruct (HL Hh) as [_ Hne]. destruct a; [contradiction|].
    destruct b; [discriminate|]. discriminate. }
  intros br Ebr. apply h_ret.
  - cbn. split; auto. split; auto. split; auto. intros ->. apply proj2 in I2. rewrite (I2 eq_refl) in Ebr. discriminate.
  - cbn. unfold scells. rewrite Ebr. intros z [<-|Hz]; cbn; auto. right. apply in_or_app; auto.
  - cbn. intros e [_ HR] Ha Hb. destruct (HR Ha Hb) as (R1 & R2 & R3). unfold bor in R1. rewrite Ebr in R1. auto.
Qed.
Lemma proper_lt_n n (e : env) (c : crt) x : proper n e c x -> lt_n e n (c_limbs c).
Proof. intros (_ & H & _). exact H. Qed.
Lemma proper_ev n (e : env) (c : crt) x : proper n e c x -> x = ev e n (c_limbs c).
Proof. intros (_ & _ & H & _). exact H. Qed.
Lemma h_big_sub_crt L (Pre : env -> Prop) (Hon : Prop) n (a b : crt) : (1 <= n)%nat -> (n + 2 <= CAPACITY p)%nat -> cpre L a -> cpre L b ->
  (Hon -> length (c_limbs a) = length (c_limbs b) /\ c_limbs a <> []) -> (Hon -> Pre hval -> lwidth n /\ lt_n hval n (c_limbs a) /\ lt_n hval n (c_limbs b)) ->
  hcalc L Pre Hon (big_sub_crt lb a b n (of_Z p (2 ^ Z.of_nat n)))
    (fun r => length (c_limbs (fst r)) = length (c_limbs a) /\ c_bits (fst r) = n /\ c_val (fst r) = c_val a - c_val b /\
              length (c_limbs a) = length (c_limbs b) /\ c_limbs a <> [])
    (fun e r => forall x y, proper n e a x -> proper n e b y -> e (snd r) = fbool (x <? y) /\ lt_n e n (c_limbs (fst r)) /\
        ev e n (c_limbs (fst r)) = x - y + (if x <? y then 2 ^ Z.of_nat (n * length (c_limbs a)) else 0) /\ (y <= x -> proper n e (fst r) (x - y)))
    (fun r => snd r :: ccells (fst r)).
Proof.
  intros Hn1 Hn2 Ca Cb HL HH. unfold big_sub_crt.
  eapply h_bind; [apply calc_h, (calc_sub lb L Pre (Existing (c_nat a)) (Existing (c_nat b))); cbn; now apply cpre_nat|]. cbv beta. intros nt _.
  eapply h_bind; [apply (h_big_sub _ _ Hon n (c_limbs a) (c_limbs b)); auto|].
  - apply incl_appr. now apply cpre_limbs.
  - apply incl_appr. now apply cpre_limbs.
  - intros Hh [Hpre _]. auto.
  - cbv beta. intros r (Q1 & Q2 & Q3 & Q4). apply h_ret.
    + cbn. unfold c_limbs, c_bits in *. cbn. auto.
    + cbn. unfold c_limbs. cbn. intros z [<-|[<-|Hz]]; [now left| |].
      * right. apply in_or_app. right. now left.
      * right. apply in_or_app. now left.
    + cbn [qe fst snd]. intros e [[Hpre En] HR] x y Px Py.
      specialize (HR (proper_lt_n _ _ _ _ Px) (proper_lt_n _ _ _ _ Py)). rewrite <- (proper_ev _ _ _ _ Px), <- (proper_ev _ _ _ _ Py) in HR.
      destruct HR as (R1 & R2 & R3). split; auto. split; [exact R2|]. split; [exact R3|]. intros Hle.
      unfold proper, c_bits, c_limbs. cbn. split; auto. split; [exact R2|]. unfold ev in R3. destruct (Z.ltb_spec x y); [lia|].
      rewrite R3. split; [lia|]. rewrite En. destruct Px as (_ & _ & _ & ->). destruct Py as (_ & _ & _ & ->). now rewrite <- of_Z_sub.
Qed.
Lemma h_big_less_than L (Pre : env -> Prop) (Hon : Prop) n a b : (1 <= n)%nat -> (n + 2 <= CAPACITY p)%nat -> incl a L -> incl b L ->
  (Hon -> length a = length b /\ a <> []) -> (Hon -> Pre hval -> lwidth n /\ lt_n hval n a /\ lt_n hval n b) ->
  hcalc L Pre Hon (big_less_than lb a b n (of_Z p (2 ^ Z.of_nat n))) (fun _ => length a = length b /\ a <> [])
    (fun e o => lt_n e n a -> lt_n e n b -> e o = fbool (ev e n a <? ev e n b)) one.
Proof.
  intros. unfold big_less_than. eapply h_bind; [apply (h_big_sub L Pre Hon n a b); auto|]. cbv beta. intros r (Q1 & Q2 & Q3 & Q4). apply h_ret; auto.
  - intros z [<-|[]]. now left.
  - intros e [_ HR] Ha Hb. apply (HR Ha Hb).
Qed.
End Sub.
