(** FpChip: constructor, constants, comparisons with the modulus, range checks, loading. *)
From Coq Require Import ZArith Znumtheory Lia List Bool Ring.
From Verif Require Import Field Spec Context ContextProofs Utils Logic Gate GateProofs ChainProofs IPProofs BitProofs PowProofs IPComp Derived
  Range RangeProofs RangeProofs2 RangeProofs3 RegionGets Calc CalcH RegionPrev RegionLast BigPrims BigNum BigInt BigSpec BigOps BigSel BigCmp BigSub BigCarry BigMod BigCrtNum BigCrt FpChip.
Import ListNotations.
Local Open Scope Z_scope.

Section FpProofs.
Context {p : positive}.
Notation Fp := (F p).
Notation AV := (AV p).
Notation crt := (crt p).
Variables (lb : nat) (m : positive).
Notation env := (env (p:=p)).
Notation hcalc := (hcalc lb).
Hypothesis Hp : prime (Z.pos p).
Hypothesis Hlb : (1 <= lb < 64)%nat.
Hypothesis Hlb2 : (2 * lb <= CAPACITY p)%nat.
Hypothesis Hm : 1 < Z.pos m.
Add Ring Fring : (F_ring p) (morphism (F_morph p), constants [Fcst]).

Definition chip_ok (ch : fpchip p) (n k : nat) : Prop :=
  f_bits ch = n /\ f_num ch = k /\ f_num_bits ch = bit_length (Z.of_nat k) /\ f_num_log2 ch = log2_ceil (Z.of_nat k) /\
  f_bases ch = fbases n k 1 /\ f_base_big ch = 2 ^ Z.of_nat n /\ f_p ch = Z.pos m /\
  f_p_limbs ch = map (of_Z p) (digits n k (Z.pos m)) /\ f_p_native ch = of_Z p (Z.pos m).

Lemma bases_loop_spec n B : forall k c, B = of_Z p (2 ^ Z.of_nat n) -> bases_loop k (of_Z p c) B = fbases n k (2 ^ Z.of_nat n * c).
Proof. induction k as [|k IH]; intros c HB; cbn; auto. assert (E : (B * of_Z p c)%F = of_Z p (2 ^ Z.of_nat n * c)) by now rewrite HB, <- of_Z_mul. rewrite E. f_equal. now apply IH. Qed.

Lemma fpchip_new_ok n k ch : fpchip_new m n k = Some ch -> chip_ok ch n k /\ (64 <= n < 128)%nat /\ (n <= CAPACITY p)%nat /\ (1 <= k)%nat.
Proof.
  unfold fpchip_new. destruct (Nat.ltb_spec 0 n); [|discriminate]. destruct (Nat.ltb_spec 0 k); [|discriminate].
  destruct (Nat.leb_spec n (CAPACITY p)); [|discriminate]. cbn [andb].
  rewrite (modulus_correct (p:=m)) by auto.
  destruct (decompose_biguint _ k n) as [pl|] eqn:E1; [|discriminate].
  destruct (biguint_to_fe _) as [pn|] eqn:E2; [|discriminate]. destruct (biguint_to_fe (Z.shiftl _ _)) as [base|] eqn:E3; [|discriminate].
  intros [= <-].
  assert (Hn : (64 <= n < 128)%nat). { unfold decompose_biguint, decompose_biguint_limbs in E1. destruct (Nat.leb_spec 64 n); [|discriminate]. destruct (Nat.ltb_spec n 128); [lia|discriminate]. }
  unfold decompose_biguint in E1. rewrite decompose_biguint_limbs_correct in E1 by lia. injection E1 as <-.
  unfold biguint_to_fe in E2, E3. destruct (_ && _) in E2; [|discriminate]. destruct (_ && _) in E3; [|discriminate]. injection E2 as <-. injection E3 as <-.
  rewrite (modulus_correct (p:=p)) by (pose proof (prime_ge_2 _ Hp); lia). rewrite Z.shiftl_1_l.
  split; [|lia]. unfold chip_ok. cbn. repeat split; auto.
  - destruct k as [|k]; [lia|]. cbn [fbases Nat.sub]. rewrite Nat.sub_0_r. f_equal. apply (bases_loop_spec n); auto.
  - apply of_Z_eq_iff. apply Z.mod_mod. lia.
Qed.
Lemma fpchip_new_total n k : (64 <= n < 128)%nat -> (n <= CAPACITY p)%nat -> (1 <= k)%nat -> exists ch, fpchip_new (p:=p) m n k = Some ch.
Proof.
  intros Hn Hn2 Hk. unfold fpchip_new. destruct (Nat.ltb_spec 0 n); [|lia]. destruct (Nat.ltb_spec 0 k); [|lia].
  destruct (Nat.leb_spec n (CAPACITY p)); [|lia]. cbn [andb]. rewrite (modulus_correct (p:=m)) by auto.
  unfold decompose_biguint. rewrite decompose_biguint_limbs_correct by lia. cbn [option_map].
  rewrite (modulus_correct (p:=p)) by (pose proof (prime_ge_2 _ Hp); lia).
  rewrite biguint_to_fe_some by (apply Z.mod_pos_bound; lia). rewrite biguint_to_fe_some; [eauto|].
  rewrite Z.shiftl_1_l. pose proof (pow2_pos n).
  pose proof (CAPACITY_bound p) as [HC _]. pose proof (pow2_le _ _ Hn2). 
  assert (2 ^ Z.of_nat (CAPACITY p) <> Z.pos p \/ (CAPACITY p <= 1)%nat).
  { destruct (Nat.leb_spec (CAPACITY p) 1); auto. left. intros E. pose proof (prime_ge_2 _ Hp).
    destruct (prime_divisors _ Hp 2) as [H9|[H9|[H9|H9]]]; try lia.
    - rewrite <- E. replace (CAPACITY p) with (S (CAPACITY p - 1)) by lia. rewrite pow2_S. exists (2 ^ Z.of_nat (CAPACITY p - 1)). lia.
    - rewrite <- E in H9. pose proof (pow2_le 2 (CAPACITY p) ltac:(lia)) as H10. change (2 ^ Z.of_nat 2) with 4 in H10. lia. }
  lia.
Qed.

(** sizes under which the field chip's checks are both satisfiable and meaningful *)
Definition fp_params (n k : nat) : Prop :=
  sizes_ok (p:=p) n k (Z.pos m) /\ (n * (k - 1) <= bits (Z.pos m))%nat /\ lwidth (p:=p) lb n /\ (n + 2 <= CAPACITY p)%nat /\ (Z.of_nat k < 2 ^ 62).

Variables (ch : fpchip p) (n k : nat).
Hypothesis HN : fpchip_new m n k = Some ch.
Hypothesis HK : fp_params n k.

Lemma ch_ok : chip_ok ch n k.
Proof. now destruct (fpchip_new_ok _ _ _ HN). Qed.
Lemma ch_sizes : (2 <= k)%nat /\ (64 <= n < 128)%nat /\ Z.pos m < 2 ^ Z.of_nat (n * k) /\ (n <= CAPACITY p)%nat /\ (n + 2 <= CAPACITY p)%nat.
Proof. destruct HK as ((H1 & H2 & H3 & _) & _ & _ & H4 & _). lia. Qed.
Lemma modp_of_ok : modp_ok (modp_of ch) n k (Z.pos m).
Proof.
  destruct ch_ok as (C1 & C2 & C3 & C4 & C5 & C6 & C7 & C8 & C9). destruct HK as ((H1 & H2 & H3 & _) & _ & _ & H4 & H6).
  unfold modp_ok, modp_of. cbn. rewrite C1, C3, C5, C6, C7, C8, C9. repeat (split; auto).
  - apply bit_length_spec. split; [lia|]. eapply Z.lt_trans; [exact H6|]. reflexivity.
  - assert (bit_length (Z.of_nat k) <= 62)%nat by (apply bit_length_spec; [split; [lia|]; eapply Z.lt_trans; [exact H6|reflexivity]|exact H6]). lia.
Qed.
Lemma base1_ok : base1 ch = Some (of_Z p (2 ^ Z.of_nat n)).
Proof. destruct ch_ok as (C1 & C2 & C3 & C4 & C5 & _). unfold base1. rewrite C5. apply (nth_fbases1 lb Hlb Hlb2). apply ch_sizes. Qed.
Lemma log2_ok : Z.of_nat k <= 2 ^ Z.of_nat (f_num_log2 ch).
Proof.
  destruct ch_ok as (C1 & C2 & C3 & C4 & _). destruct HK as ((H1 & _) & _ & _ & _ & H6). rewrite C4. apply log2_ceil_spec. split; [lia|].
  eapply Z.lt_trans; [exact H6|reflexivity].
Qed.

Lemma h_load_constant_uint L (Pre : env -> Prop) (Hon : Prop) v : 0 <= v < 2 ^ Z.of_nat (n * k) ->
  hcalc L Pre Hon (load_constant_uint ch v) (fun c => length (c_limbs c) = k /\ c_bits c = n /\ c_val c = v)
    (fun e c => proper n e c v /\ map e (c_limbs c) = map (of_Z p) (digits n k v)) ccells.
Proof.
  intros Hv. unfold load_constant_uint. destruct ch_ok as (C1 & C2 & _). rewrite C1, C2. pose proof ch_sizes. apply (h_fixed_crt_assign lb); auto; lia.
Qed.

(** ** enforce_less_than_p *)
Definition lcells (st : option AV) : list AV := match st with Some b => [b] | None => [] end.
Definition lbor (st : option AV) (e : env) : Fp := match st with Some b => e b | None => F0 end.
Lemma h_ltp_step L (Pre : env -> Prop) (Hon : Prop) st c a : 0 <= c < 2 ^ Z.of_nat n -> In a L -> incl (lcells st) L ->
  (Hon -> Pre hval -> val (hval a) < 2 ^ Z.of_nat n /\ is_bit (lbor st hval)) ->
  hcalc L Pre Hon (ltp_step lb ch st (of_Z p c, a)) (fun st' => exists lt, st' = Some lt)
    (fun e st' => exists lt, st' = Some lt /\ forall br, lbor st e = fbool br -> val (e a) < 2 ^ Z.of_nat n ->
       e lt = fbool (val (e a) <? c + (if br : bool then 1 else 0))) lcells.
Proof.
  intros Hc Ha Hst HH. destruct ch_ok as (C1 & _). pose proof ch_sizes as (S1 & S2 & S3 & S4 & S5). destruct HK as (_ & _ & [W1 W2] & _).
  pose proof (pow2_le_p lb Hlb Hlb2 n ltac:(lia)) as HPp. pose proof (pow2_le_p lb Hlb Hlb2 (n + 2) ltac:(lia)) as HPp2.
  assert (HPp3 : 2 ^ Z.of_nat n + 1 < Z.pos p). { rewrite pow2_add in HPp2. change (2 ^ Z.of_nat 2) with 4 in HPp2. pose proof (pow2_pos n). lia. }
  pose proof (pow2_le n (pad_bits lb n) (pad_ge lb Hlb Hlb2 n)) as HPad.
  unfold ltp_step. rewrite C1. destruct st as [b|]; cbn [lbor lcells] in *.
  - eapply h_bind with (P1 := fun _ => True) (R1 := fun e o => forall br, e b = fbool br -> val (e a) < 2 ^ Z.of_nat n -> e o = fbool (val (e a) <? c + (if br : bool then 1 else 0))) (c1 := one).
    + eapply h_bind; [apply calc_h, (calc_add lb L Pre (Constant (of_Z p c)) (Existing b)); cbn; auto|].
      { apply Hst; cbn; auto. }
      cbv beta. intros pb _.
      assert (Hv : forall (e : env) br, e b = fbool br -> e pb = (qe e (Constant (of_Z p c)) + qe e (Existing b))%F -> val (e pb) = c + (if br : bool then 1 else 0)).
      { intros e br Hb E. rewrite E. cbn [qe]. rewrite Hb. destruct br; cbn [fbool].
        - change (F1 : Fp) with (of_Z p 1). rewrite <- of_Z_add, val_of_Z_small; lia.
        - change (F0 : Fp) with (of_Z p 0). rewrite <- of_Z_add, val_of_Z_small; lia. }
      eapply h_post with (cs := one) (P' := fun _ => True); [apply (h_is_less_than lb Hp Hlb Hlb2) with (a := Existing a) (b := Existing pb) (n := n)| | |]; cbn.
      * right. exact Ha.
      * now left.
      * intros Hh [Hpre E]. destruct (HH Hh Hpre) as [Ha1 Hb1]. split; auto. split; [lia|].
        assert (exists br, hval b = fbool br) as [br Hb]. { destruct Hb1 as [Hb1|Hb1]; [exists false|exists true]; auto. }
        rewrite (Hv hval br Hb E). destruct br; lia.
      * auto.
      * intros e o _ [Hpre E] HR br Hb Hav. rewrite HR; [|lia|]; rewrite (Hv e br Hb E); auto. destruct br; lia.
      * intros o _ z [<-|[]]. now left.
    + cbv beta. intros o _. apply h_ret; eauto.
      * intros z [<-|[]]. now left.
      * intros e [_ HR]. eauto.
  - eapply h_bind; [apply (h_is_less_than lb Hp Hlb Hlb2) with (a := Existing a) (b := Constant (of_Z p c)) (n := n); cbn; auto|].
    + intros Hh Hpre. destruct (HH Hh Hpre) as [Ha1 _]. rewrite Z.mod_small by lia. split; auto. lia.
    + cbv beta. intros o _. apply h_ret; eauto.
      * intros z [<-|[]]. now left.
      * intros e [_ HR]. exists o. split; auto. intros br Hb Hav. assert (br = false). { destruct br; auto. cbn in Hb. exfalso. now apply (F1_neq_0 _ Hp). } subst br.
        cbn [qe] in HR. rewrite val_of_Z_small in HR by lia. rewrite Z.add_0_r. apply HR; lia.
Qed.

Lemma undigits_snoc (l : list Z) d : undigits n (l ++ [d]) = undigits n l + 2 ^ Z.of_nat (n * length l) * d.
Proof. rewrite U_app. cbn [undigits]. lia. Qed.
Lemma lex_lt W A D a d : 0 <= A < W -> 0 <= D < W -> (A + W * a <? D + W * d) = (a <? d + (if A <? D then 1 else 0)).
Proof. intros HA HD. destruct (Z.ltb_spec A D); apply eq_true_iff_eq; rewrite !Z.ltb_lt; nia. Qed.

Lemma ltp_loop L (Pre : env -> Prop) (Hon : Prop) (cs : list Z) (al : list AV) : length cs = length al -> Forall (fun c => 0 <= c < 2 ^ Z.of_nat n) cs -> incl al L -> al <> [] ->
  (Hon -> Pre hval -> lt_n hval n al) ->
  hcalc L Pre Hon (foldM (ltp_step lb ch) (combine (map (of_Z p) cs) al) None) (fun st => exists b, st = Some b)
    (fun e st => exists b, st = Some b /\ (lt_n e n al -> e b = fbool (ev e n al <? undigits n cs))) lcells.
Proof.
  intros HL HF HI Hne HH.
  assert (Hsplit : forall done x rest, combine (map (of_Z p) cs) al = done ++ x :: rest ->
     exists c a cs1 al1, x = (of_Z p c, a) /\ done = combine (map (of_Z p) cs1) al1 /\ length cs1 = length al1 /\ In c cs /\ In a al /\
       (exists cs2 al2, cs = cs1 ++ c :: cs2 /\ al = al1 ++ a :: al2)).
  { clear HF HI Hne HH. revert al HL. induction cs as [|c cs IH]; intros [|a al] HL done x rest E; try discriminate; [destruct done; discriminate|].
    cbn in E. destruct done as [|d done]; injection E as <- E.
    - exists c, a, [], []. cbn. repeat split; auto. exists cs, al. auto.
    - destruct (IH al ltac:(cbn in HL; lia) done x rest E) as (c' & a' & cs1 & al1 & -> & -> & E1 & E2 & E3 & cs2 & al2 & -> & ->).
      exists c', a', (c :: cs1), (a :: al1). cbn. repeat split; auto. exists cs2, al2. auto. }
  assert (Hu : forall (cs1 cs1' : list Z) (al1 al1' : list AV), length cs1 = length al1 -> length cs1' = length al1' ->
     combine (map (of_Z p) cs1) al1 = combine (map (of_Z p) cs1') al1' -> al1 = al1').
  { induction cs1 as [|c cs1 IH]; intros [|c' cs1'] [|a al1] [|a' al1'] H1 H2 E; cbn in *; try discriminate; auto. injection E as _ -> E. f_equal. eapply IH; eauto. }
  set (J := fun (e : env) (done : list (Fp * AV)) (st : option AV) => forall cs1 al1 cs2 al2, cs = cs1 ++ cs2 -> al = al1 ++ al2 -> length cs1 = length al1 ->
     done = combine (map (of_Z p) cs1) al1 -> lt_n e n al -> lbor st e = fbool (ev e n al1 <? undigits n cs1)).
  set (I := fun (done : list (Fp * AV)) (st : option AV) => done = [] \/ exists b, st = Some b).
  eapply h_post; [apply h_foldM with (I := I) (J := J) (cs := lcells)| | |]; auto.
  - intros done x rest st E HIst. destruct (Hsplit _ _ _ E) as (c & a & cs1 & al1 & -> & Ed & E1 & E2 & E3 & cs2 & al2 & E4 & E5).
    rewrite Forall_forall in HF. pose proof (HF c E2) as Hc.
    assert (HJ : forall e : env, J e done st -> lt_n e n al -> lbor st e = fbool (ev e n al1 <? undigits n cs1)). { intros e HJ Hlt. apply (HJ cs1 al1 (c :: cs2) (a :: al2)); auto. }
    eapply h_post; [apply (h_ltp_step (lcells st ++ L) (fun e => Pre e /\ J e done st) Hon st c a Hc)| | |]; auto.
    + apply in_or_app; right. now apply HI.
    + intros z Hz. apply in_or_app; now left.
    + intros Hh [Hpre HJe]. specialize (HH Hh Hpre). split; [apply (proj1 (Forall_forall _ _) HH); auto|].
      rewrite (HJ _ HJe HH). destruct (_ <? _); [now right|now left].
    + intros st' [lt ->]. right. eauto.
    + intros e st' _ [Hpre HJe] (lt & -> & HR). unfold J. intros ds1 bl1 ds2 bl2 F1' F2' F3 F4 Hlt. cbn [lbor].
      assert (Hall : combine (map (of_Z p) (cs1 ++ [c])) (al1 ++ [a]) = combine (map (of_Z p) ds1) bl1).
      { rewrite <- F4, Ed. rewrite map_app. cbn [map]. clear -E1. revert al1 E1. induction cs1 as [|u cs1 IH]; intros [|v al1] E; cbn [map app combine length] in *; try discriminate; [reflexivity|]. injection E as E. now rewrite (IH _ E). }
      assert (Lb : length (cs1 ++ [c]) = length (al1 ++ [a])) by (rewrite !app_length; cbn; lia).
      pose proof (Hu _ _ _ _ Lb F3 Hall) as Eb. subst bl1.
      assert (Ed1 : ds1 = cs1 ++ [c]).
      { assert (HL1 : length ds1 = length (cs1 ++ [c])) by lia.
        assert (F5 : cs = (cs1 ++ [c]) ++ cs2) by (rewrite <- app_assoc; exact E4).
        rewrite F1' in F5. apply (f_equal (firstn (length ds1))) in F5. rewrite firstn_app, firstn_all, Nat.sub_diag, firstn_O, app_nil_r in F5.
        rewrite HL1 in F5. rewrite firstn_app, firstn_all, Nat.sub_diag, firstn_O, app_nil_r in F5. exact F5. }
      subst ds1. pose proof (HJ e HJe Hlt) as Hbr.
      pose proof (proj1 (Forall_forall _ _) Hlt a E3) as Ha. cbv beta in Ha. rewrite (HR _ Hbr Ha). f_equal.
      unfold ev. rewrite map_app. cbn [map]. rewrite !undigits_snoc, map_length, <- E1. fold (ev e n al1).
      symmetry. apply lex_lt.
      * unfold ev. rewrite E1. replace (length al1) with (length (map (fun a0 => val (e a0)) al1)) by apply map_length. apply undigits_bound.
        apply Forall_forall. intros z Hz. apply in_map_iff in Hz as (y & <- & Hy). split; [apply val_bounds|].
        apply (proj1 (Forall_forall _ _) Hlt y). rewrite E5. apply in_or_app; auto.
      * apply undigits_bound. apply Forall_forall. intros z Hz. apply HF. rewrite E4. apply in_or_app; auto.
    + intros st' [lt ->] z Hz. apply in_or_app. now left.
  - now left.
  - intros e Hpre cs1 al1 cs2 al2 _ _ E1 E2 _. destruct cs1 as [|]; [|destruct al1; discriminate]. destruct al1; [|discriminate]. reflexivity.
  - intros z [].
  - intros st [E|H]; auto. destruct cs, al; cbn in *; try congruence; discriminate.
  - intros e st HIst Hpre HJe. destruct HIst as [E|[b ->]]; [destruct cs, al; cbn in *; try congruence; discriminate|].
    exists b. split; auto. intros Hlt. apply (HJe cs al [] []); auto using app_nil_r. all: now rewrite app_nil_r.
  - intros st _ z Hz. apply in_or_app. now left.
Qed.

(** enforce_less_than_p: satisfiable only when the represented value is smaller than the modulus *)
Lemma h_enforce_less_than_p L (Pre : env -> Prop) (Hon : Prop) (a : crt) : cpre L a -> length (c_limbs a) = k ->
  (Hon -> Pre hval -> exists x, proper n hval a x /\ x < Z.pos m) ->
  hcalc L Pre Hon (enforce_less_than_p lb ch a) (fun _ => True) (fun e _ => forall x, proper n e a x -> x < Z.pos m) (fun _ => []).
Proof.
  intros Ca La HH. pose proof ch_ok as (C1 & C2 & C3 & C4 & C5 & C6 & C7 & C8 & C9). pose proof ch_sizes as (S1 & S2 & S3 & S4 & S5).
  unfold enforce_less_than_p. rewrite C8. 
  eapply h_bind; [apply (ltp_loop L Pre Hon (digits n k (Z.pos m)) (c_limbs a))|].
  { rewrite digits_length; auto. } { eapply Forall_impl; [|apply digits_bound]. cbv beta. intros; lia. } { now apply cpre_limbs. }
  { intros E. rewrite E in La. cbn in La. lia. }
  { intros Hh Hpre. destruct (HH Hh Hpre) as (x & Hx & _). eapply proper_lt_n; eauto. }
  cbv beta. intros st [b ->]. apply h_lift_bind; [eauto|]. intros b' [= <-].
  eapply h_post; [apply h_assert_is_const| | |]; auto.
  - now left.
  - intros Hh [Hpre (b0 & [= <-] & HR)]. destruct (HH Hh Hpre) as (x & Hx & Hlt). rewrite (HR (proper_lt_n _ _ _ _ Hx)).
    rewrite undigits_digits, Z.mod_small by lia. rewrite <- (proper_ev _ _ _ _ Hx). destruct (Z.ltb_spec x (Z.pos m)); [reflexivity|lia].
  - intros e [] _ [Hpre (b0 & [= <-] & HR)] Hb x Hx. rewrite (HR (proper_lt_n _ _ _ _ Hx)) in Hb.
    rewrite undigits_digits, Z.mod_small in Hb by lia. rewrite <- (proper_ev _ _ _ _ Hx) in Hb. destruct (Z.ltb_spec x (Z.pos m)); auto.
    cbn in Hb. symmetry in Hb. exfalso. now apply (F1_neq_0 _ Hp) in Hb.
  - intros [] _ z [].
Qed.
End FpProofs.
