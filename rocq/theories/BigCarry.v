(** check_carry_to_zero: the carry chain. *)
From Coq Require Import ZArith Znumtheory Lia List Bool Ring.
From Verif Require Import Field Spec Context ContextProofs Utils Logic Gate GateProofs ChainProofs IPProofs BitProofs PowProofs IPComp Derived
  Range RangeProofs RangeProofs2 RangeProofs3 RegionGets Calc CalcH RegionPrev RegionLast BigPrims BigNum BigInt BigSpec BigOps BigSel BigCmp BigSub.
Import ListNotations.
Local Open Scope Z_scope.

Lemma chain_snoc n c : forall d prev x y, chain_ok n prev c d -> x + y * 2 ^ Z.of_nat n = last d prev -> chain_ok n prev (c ++ [x]) (d ++ [y]).
Proof.
  induction c as [|c0 c IH]; intros [|d0 d] prev x y H E; cbn [chain_ok app] in *; try contradiction.
  - cbn in E. auto.
  - destruct H as [H1 H2]. split; auto. apply IH; auto. now rewrite last_cons' in E.
Qed.
Lemma chain_mid n c1 : forall d1 prev x y c2 d2, length c1 = length d1 -> chain_ok n prev (c1 ++ x :: c2) (d1 ++ y :: d2) -> x + y * 2 ^ Z.of_nat n = last d1 prev.
Proof.
  induction c1 as [|c0 c IH]; intros [|d0 d] prev x y c2 d2 HL H; cbn [length] in HL; try discriminate; cbn [chain_ok app] in *.
  - apply H.
  - rewrite last_cons'. eapply IH; [|apply H]. lia.
Qed.
Lemma last_map {A B} (f : A -> B) l d : last (map f l) (f d) = f (last l d).
Proof. induction l as [|x l IH]; [reflexivity|]. destruct l; [reflexivity|]. exact IH. Qed.
Lemma last_snoc {A} (l : list A) x d : last (l ++ [x]) d = x.
Proof. induction l as [|y l IH]; [reflexivity|]. cbn [app]. destruct (l ++ [x]) eqn:E; [destruct l; discriminate|]. exact IH. Qed.
Lemma carries_length B l : forall prev, length (carries prev l B) = length l.
Proof. induction l; intros; cbn; auto. Qed.

Lemma carries_chain n A vs : (1 <= n)%nat -> forall prev,
  Forall (fun v => Z.abs v <= A) vs -> Z.abs prev * (2 ^ Z.of_nat n - 1) <= A -> (2 ^ Z.of_nat (n * length vs) | prev + undigits n vs) ->
  chain_ok n (- prev) vs (map Z.opp (carries prev vs (2 ^ Z.of_nat n))) /\
  Forall (fun c => Z.abs c * (2 ^ Z.of_nat n - 1) <= A) (carries prev vs (2 ^ Z.of_nat n)).
Proof.
  intros Hn. pose proof (pow2_pos n) as HB. set (B := 2 ^ Z.of_nat n) in *.
  induction vs as [|x vs IH]; intros prev HF HP HD; cbn [carries map chain_ok]; [auto|].
  inversion HF; subst. cbn [undigits length] in HD. fold B in HD. replace (n * S (length vs))%nat with (n + n * length vs)%nat in HD by lia.
  rewrite pow2_add in HD. fold B in HD. destruct HD as [q Hq].
  assert (E : x + prev = (q * 2 ^ Z.of_nat (n * length vs) - undigits n vs) * B) by lia.
  assert (EQ : Z.quot (x + prev) B = q * 2 ^ Z.of_nat (n * length vs) - undigits n vs). { rewrite E. apply Z.quot_mul. lia. }
  set (c := Z.quot (x + prev) B) in *.
  assert (HC : Z.abs c * (B - 1) <= A).
  { assert (Z.abs c * B <= A + Z.abs prev). { rewrite EQ. rewrite <- (Z.abs_eq B) at 1 by lia. rewrite <- Z.abs_mul, <- E. lia. }
    assert (Z.abs c * B * (B - 1) <= A * B) by nia. nia. }
  destruct (IH c H2 HC) as [I1 I2]. { exists q. lia. }
  split; auto. split; auto. lia.
Qed.

Section Carry.
Context {p : positive}.
Notation Fp := (F p).
Notation AV := (AV p).
Notation crt := (crt p).
Variable lb : nat.
Notation env := (env (p:=p)).
Notation hcalc := (hcalc lb).
Hypothesis Hp : prime (Z.pos p).
Hypothesis Hlb : (1 <= lb < 64)%nat.
Hypothesis Hlb2 : (2 * lb <= CAPACITY p)%nat.
Add Ring Fring : (F_ring p) (morphism (F_morph p), constants [Fcst]).

Definition limb_vals (l : list AV) : option (list Z) :=
  fold_right (fun x acc => match av_value x, acc with Some v, Some l => Some (fe_to_bigint v :: l) | _, _ => None end) (Some []) l.
Lemma limb_vals_spec l : forall vs, limb_vals l = Some vs -> vs = map (fun a => fe_to_bigint (hval a)) l.
Proof.
  induction l as [|a l IH]; cbn; intros vs H; [congruence|]. destruct (av_value a) as [v|] eqn:Ea; [|discriminate].
  fold (limb_vals l) in H. destruct (limb_vals l) as [l'|]; [|discriminate]. injection H as <-. apply av_value_hval in Ea. rewrite Ea. f_equal. auto.
Qed.
Lemma limb_vals_total l : Forall good l -> exists vs, limb_vals l = Some vs.
Proof.
  induction 1 as [|a l Ha H [vs IH]]; cbn; [eauto|]. rewrite (good_value _ Ha). fold (limb_vals l). rewrite IH. eauto.
Qed.
Lemma bigint_to_fe_spec z x : bigint_to_fe (p:=p) z = Some x -> x = of_Z p z.
Proof.
  unfold bigint_to_fe, biguint_to_fe. destruct (_ && _); [|discriminate]. intros [= <-]. destruct (Z.ltb_spec z 0).
  - rewrite <- of_Z_opp. f_equal. lia.
  - f_equal. lia.
Qed.
Lemma bigint_to_fe_total z : Z.abs z < Z.pos p -> exists x, bigint_to_fe (p:=p) z = Some x.
Proof.
  intros H. unfold bigint_to_fe, biguint_to_fe. destruct (Z.leb_spec 0 (Z.abs z)); [|lia].
  destruct (Z.ltb_spec (Z.abs z) (Z.pos p)); [|lia]. cbn. eauto.
Qed.
Lemma fe_to_bigint_of (x : Fp) l : x = of_Z p l -> 2 * Z.abs l < Z.pos p -> fe_to_bigint x = l.
Proof.
  intros E H. pose proof (prime_ge_2 _ Hp). apply (of_Z_inj (p:=p)).
  - rewrite fe_to_bigint_cong by lia. exact E.
  - pose proof (fe_to_bigint_bound x ltac:(lia)). pose proof (Z.mul_div_le (Z.pos p) 2 ltac:(lia)). lia.
Qed.

Definition pval (st : option AV) (e : env) : Fp := match st with Some x => e x | None => F0 end.
Definition ocells (st : option AV) : list AV := match st with Some x => [x] | None => [] end.

Lemma h_carry_step L (Pre : env -> Prop) (Hon : Prop) n rb st a c : In a L -> incl (ocells st) L -> (rb < NUM_BITS p)%nat ->
  (Hon -> Pre hval -> (rb + 1 <= CAPACITY p)%nat /\ Z.abs c < 2 ^ Z.of_nat rb /\ (hval a + of_Z p (- c) * of_Z p (2 ^ Z.of_nat n))%F = pval st hval) ->
  hcalc L Pre Hon (carry_step lb (of_Z p (2 ^ Z.of_nat n)) (of_Z p (2 ^ Z.of_nat rb)) rb st (a, c))
    (fun st' => exists x, st' = Some x /\ hval x = of_Z p (- c))
    (fun e st' => exists d, - 2 ^ Z.of_nat rb <= d <= 2 ^ Z.of_nat rb /\ pval st' e = of_Z p d /\ (e a + of_Z p d * of_Z p (2 ^ Z.of_nat n))%F = pval st e) ocells.
Proof.
  intros Ia HL Hrb HH. unfold carry_step. pose proof (pow2_pos rb) as HR.
  apply h_lift_bind. { intros Hh Hpre _. destruct (HH Hh Hpre) as (H1 & H2 & _). apply bigint_to_fe_total.
    pose proof (pow2_le_p lb Hlb Hlb2 rb ltac:(lia)). lia. }
  intros nc Hnc. apply bigint_to_fe_spec in Hnc.
  eapply h_ext with (m' := bind (bind (assign_region [Existing a; Witness nc; Constant (of_Z p (2 ^ Z.of_nat n)); match st with Some x => Existing x | None => Constant F0 end] [0])
     (fun _ => ctx_get (- Z.of_nat 3))) (fun neg_carry => bind (add (Existing neg_carry) (Constant (of_Z p (2 ^ Z.of_nat rb)))) (fun shifted =>
     bind (range_check lb shifted (rb + 1)) (fun _ => ret (Some neg_carry))))).
  { intros s. unfold bind. destruct (assign_region _ _ s) as [[u s1]|]; reflexivity. }
  eapply h_bind.
  { apply (h_region1 lb) with (q := Witness nc).
    - repeat apply Forall_cons; cbn; auto. destruct st; cbn; auto. apply HL. now left.
    - cbn. intros o [<-|[]]; lia.
    - cbn. lia.
    - reflexivity.
    - intros Hh Hpre k Hk. destruct (HH Hh Hpre) as (_ & _ & E). cbn in Hk. destruct Hk as [Hk|[]]. assert (k = 0%nat) as -> by lia.
      cbn. fold (hval a). rewrite Hnc, E. destruct st; reflexivity. }
  cbv beta. intros x Hx. cbn in Hx.
  eapply h_bind; [apply calc_h, (calc_add lb _ _ (Existing x) (Constant (of_Z p (2 ^ Z.of_nat rb)))); cbn; auto|]. cbv beta. intros sh _.
  eapply h_bind; [apply (h_range_check lb Hp Hlb Hlb2); [now left|]|].
  { intros Hh [[Hpre _] E]. destruct (HH Hh Hpre) as (H1 & H2 & _). split; auto. rewrite E. cbn [qe]. rewrite Hx, Hnc, <- of_Z_add.
    pose proof (pow2_le_p lb Hlb Hlb2 (rb + 1) H1) as H3. rewrite pow2_add in *. change (2 ^ Z.of_nat 1) with 2 in *.
    rewrite val_of_Z_small; lia. }
  cbv beta. intros [] _. apply h_ret.
  - exists x. split; auto. now rewrite Hx, Hnc.
  - cbn. intros z [<-|[]]. right. now left.
  - intros e [[[Hpre (v & [V1 V2] & Ex)] Es] Hr]. cbn [qe] in Es. rewrite Es in Hr. cbn in Ex.
    exists (val (e x + of_Z p (2 ^ Z.of_nat rb))%F - 2 ^ Z.of_nat rb).
    assert (ED : e x = of_Z p (val (e x + of_Z p (2 ^ Z.of_nat rb))%F - 2 ^ Z.of_nat rb)). { rewrite of_Z_sub, of_Z_val. ring. }
    split; [|split].
    + pose proof (val_bounds p (e x + of_Z p (2 ^ Z.of_nat rb))%F). rewrite pow2_add in Hr. change (2 ^ Z.of_nat 1) with 2 in Hr. lia.
    + exact ED.
    + rewrite <- ED. pose proof (V1 0%nat _ eq_refl) as v0. pose proof (V1 2%nat _ eq_refl) as v2. pose proof (V1 3%nat _ eq_refl) as v3. cbn in v0, v2, v3.
      pose proof (V2 0%nat (or_introl eq_refl)) as G. cbn in G. rewrite v0, Ex, <- v2, G. destruct st; cbn in *; auto.
Qed.

(** the honest prover's condition for [check_carry_to_zero] *)
Definition carry_hon (n rb : nat) (l : list AV) : Prop :=
  (rb + 1 <= CAPACITY p)%nat /\ exists ls A, map hval l = map (of_Z p) ls /\ Forall (fun v => Z.abs v <= A) ls /\ 2 * A < Z.pos p /\
    A < 2 ^ Z.of_nat rb * (2 ^ Z.of_nat n - 1) /\ (2 ^ Z.of_nat (n * length l) | undigits n ls).
(** what it enforces *)
Definition carry_snd (n rb : nat) (e : env) (l : list AV) : Prop :=
  forall ls A, map e l = map (of_Z p) ls -> Forall (fun v => Z.abs v <= A) ls -> A + 2 ^ Z.of_nat (rb + n) + 2 ^ Z.of_nat rb < Z.pos p ->
    (2 ^ Z.of_nat (n * length l) | undigits n ls).

Lemma h_check_carry_to_zero L (Pre : env -> Prop) (Hon : Prop) (a : ovi p) n : (1 <= n)%nat -> incl (o_limbs a) L ->
  (Hon -> (n <= o_bits a)%nat) -> (Hon -> Pre hval -> carry_hon n (carry_range_bits lb (o_bits a) n) (o_limbs a)) ->
  hcalc L Pre Hon (check_carry_to_zero lb a n (of_Z p (2 ^ Z.of_nat n)) (2 ^ Z.of_nat n)) (fun _ => (n <= o_bits a)%nat)
    (fun e _ => carry_snd n (carry_range_bits lb (o_bits a) n) e (o_limbs a)) (fun _ => []).
Proof.
  intros Hn HL Hb HH. unfold check_carry_to_zero. fold (limb_vals (o_limbs a)).
  apply h_lift_bind. { intros _ _ HG. apply limb_vals_total. rewrite Forall_forall in *. auto. }
  intros vs Hvs. apply limb_vals_spec in Hvs.
  apply h_assert_bind. { intros Hh _. apply Nat.leb_le; auto. } intros Hnb. apply Nat.leb_le in Hnb.
  apply h_assert_bind. { intros _ _. apply Nat.ltb_lt. lia. } intros _.
  set (rb := carry_range_bits lb (o_bits a) n) in *. set (cs := carries 0 vs (2 ^ Z.of_nat n)).
  apply h_lift_bind. { intros Hh Hpre _. destruct (HH Hh Hpre) as [H1 _]. eexists. apply (pow_nth Hp). unfold NUM_BITS. lia. }
  intros shv Hsh. apply (pow_nth_inv Hp) in Hsh as [Hrb ->].
  assert (Lcs : length cs = length (o_limbs a)). { unfold cs. rewrite carries_length, Hvs. apply map_length. }
  eapply h_bind with (P1 := fun _ => True) (c1 := fun _ => []) (R1 := fun e _ => carry_snd n rb e (o_limbs a)).
  2:{ cbv beta. intros _ _. apply h_ret; auto; [intros z []|]. cbv beta. tauto. }
  eapply h_post; [apply h_foldM with (cs := ocells)
    (I := fun done st => match st with None => done = [] | Some x => exists d c, done = d ++ [c] /\ hval x = of_Z p (- snd c) end)
    (J := fun e done st => forall ls A, map e (map fst done) = map (of_Z p) ls -> Forall (fun v => Z.abs v <= A) ls -> A + 2 ^ Z.of_nat (rb + n) + 2 ^ Z.of_nat rb < Z.pos p ->
        exists ds, chain_ok n 0 ls ds /\ pval st e = of_Z p (last ds 0) /\ Z.abs (last ds 0) <= 2 ^ Z.of_nat rb)| | |]; cbv beta.
  - intros done [x c] rest st E HI.
    assert (Ix : In x (o_limbs a)). { apply (in_combine_l _ cs x c). fold cs in E. rewrite E. apply in_or_app. right. now left. }
    eapply h_post; [apply (h_carry_step (ocells st ++ L) _ Hon n rb st x c)| | |]; auto.
    + apply in_or_app. auto.
    + intros z Hz. apply in_or_app; auto.
    + intros Hh [Hpre _]. destruct (HH Hh Hpre) as (H1 & ls & A & M1 & M2 & M3 & M4 & M5). split; auto.
      assert (Els : vs = ls).
      { rewrite Hvs, <- map_map, M1, map_map. rewrite <- (map_id ls) at 2. apply map_ext_in. intros l Hl. rewrite Forall_forall in M2. specialize (M2 l Hl).
        apply fe_to_bigint_of; auto. lia. }
      assert (HA : 0 <= A). { rewrite Forall_forall in M2. destruct ls as [|l0 ls]; [destruct (o_limbs a); [destruct Ix|discriminate]|]. specialize (M2 l0 (or_introl eq_refl)). lia. }
      assert (Lls : length ls = length (o_limbs a)). { apply (f_equal (@length _)) in M1. now rewrite !map_length in M1. }
      assert (M5' : (2 ^ Z.of_nat (n * length ls) | 0 + undigits n ls)) by (rewrite Lls; exact M5).
      destruct (carries_chain n A ls Hn 0 M2 ltac:(lia) M5') as [C1 C2]. rewrite <- Els in C1, C2. fold cs in C1, C2, E.
      change (- 0) with 0 in C1.
      assert (Ic : In c cs). { apply (in_combine_r (o_limbs a) cs x c). rewrite E. apply in_or_app. right. now left. }
      rewrite Forall_forall in C2. specialize (C2 c Ic).
      assert (HB : 2 <= 2 ^ Z.of_nat n). { pose proof (pow2_le 1 n Hn) as H. exact H. }
      split; [nia|].
      (* the chain equation at this position *)
      assert (SP : o_limbs a = map fst done ++ x :: map fst rest /\ cs = map snd done ++ c :: map snd rest).
      { assert (F : map fst (combine (o_limbs a) cs) = o_limbs a /\ map snd (combine (o_limbs a) cs) = cs).
        { clear - Lcs. revert Lcs. generalize cs as c. induction (o_limbs a) as [|y l IH]; intros [|z c] H; cbn in *; try discriminate; auto.
          destruct (IH c) as [A B]; [lia|]. rewrite A, B. auto. }
        rewrite E, !map_app in F. cbn in F. destruct F as [F1 F2]. auto. }
      destruct SP as [SP1 SP2].
      assert (VS : vs = map (fun a => fe_to_bigint (hval a)) (map fst done) ++ fe_to_bigint (hval x) :: map (fun a => fe_to_bigint (hval a)) (map fst rest)).
      { rewrite Hvs, SP1, map_app. reflexivity. }
      rewrite VS, SP2, map_app in C1. cbn [map] in C1. apply chain_mid in C1; [|rewrite !map_length; reflexivity].
      pose proof (prime_ge_2 _ Hp). rewrite <- (fe_to_bigint_cong (hval x)) by lia. rewrite <- of_Z_mul, <- of_Z_add, C1.
      change 0 with (- (0)) at 1. rewrite last_map. destruct st as [y|].
      * destruct HI as (d & c0 & -> & Hy). cbn [pval]. rewrite Hy, map_app. cbn [map]. rewrite last_snoc. reflexivity.
      * subst done. reflexivity.
    + intros st' (y & -> & Hy). exists done, (x, c). auto.
    + intros e st' _ [Hpre HJ] (d & D1 & D2 & D3) ls A M1 M2 M3. rewrite !map_app in M1. cbn [map fst] in M1.
      symmetry in M1. apply map_eq_app in M1 as (l1 & l2 & -> & M1 & M1'). destruct l2 as [|l l2]; [discriminate|]. cbn in M1'. injection M1' as M1' M1''.
      destruct l2; [|discriminate]. apply Forall_app in M2 as [M2 M2']. inversion M2' as [|? ? Ml _]. subst.
      destruct (HJ l1 A (eq_sym M1) M2 M3) as (ds & C1 & C2 & C3). exists (ds ++ [d]). rewrite last_snoc. split; [|split; [auto|lia]].
      apply chain_snoc; auto. rewrite C2, <- M1', <- of_Z_mul, <- of_Z_add in D3. apply of_Z_inj in D3; auto.
      rewrite pow2_add in M3. pose proof (pow2_pos n). pose proof (pow2_pos rb).
      assert (Z.abs (d * 2 ^ Z.of_nat n) <= 2 ^ Z.of_nat rb * 2 ^ Z.of_nat n). { rewrite Z.abs_mul, (Z.abs_eq (2 ^ Z.of_nat n)) by lia. apply Z.mul_le_mono_nonneg_r; lia. }
      lia.
    + intros st' _ z Hz. apply in_or_app; auto.
  - reflexivity.
  - intros e _ ls A M1 _ M3. cbn in M1. destruct ls; [|discriminate]. exists []. cbn. split; [auto|]. split; [auto|]. pose proof (pow2_pos rb); lia.
  - intros z [].
  - auto.
  - intros e st _ Hpre HJ ls A M1 M2 M3.
    assert (F : map fst (combine (o_limbs a) cs) = o_limbs a).
    { clear - Lcs. revert Lcs. generalize cs as c. induction (o_limbs a) as [|y l IH]; intros [|z c] H; cbn in *; try discriminate; auto. f_equal. apply IH. lia. }
    fold cs in HJ. rewrite F in HJ. destruct (HJ ls A M1 M2 M3) as (ds & C1 & _). apply chain_divide in C1.
    replace (length (o_limbs a)) with (length ls); auto. apply (f_equal (@length _)) in M1. now rewrite !map_length in M1.
  - intros st _ z [].
Qed.
End Carry.
