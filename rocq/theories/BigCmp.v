(** Constants, zero tests, equality and parity of big integers. *)
From Coq Require Import ZArith Znumtheory Lia List Bool Ring.
From Verif Require Import Field Spec Context ContextProofs Utils Logic Gate GateProofs ChainProofs IPProofs BitProofs PowProofs IPComp Derived
  Range RangeProofs RangeProofs2 RangeProofs3 RegionGets Calc CalcH RegionPrev BigPrims BigNum BigInt BigSpec BigOps BigSel.
Import ListNotations.
Local Open Scope Z_scope.

Section Cmp.
Context {p : positive}.
Notation Fp := (F p).
Notation AV := (AV p).
Notation crt := (crt p).
Variable lb : nat.
Notation env := (env (p:=p)).
Notation hcalc := (hcalc lb).
Hypothesis Hp : prime (Z.pos p).
Hypothesis Hlb : (1 <= lb < 64)%nat.
Hypothesis Hlb2 : (2 * lb <= CAPACITY p)%nat.
Add Ring Fring : (F_ring p) (morphism (F_morph p), constants [Fcst]).

Lemma fsum_val (l : list Fp) D : 0 <= D -> Forall (fun v => val v <= D) l -> Z.of_nat (length l) * D < Z.pos p ->
  val (fsum l) <= Z.of_nat (length l) * D /\ (fsum l = F0 <-> Forall (fun v => v = F0) l).
Proof.
  intros HD H. induction H as [|v l Hv H IH]; intros HB.
  - cbn [fsum length]. rewrite (val_0 p). split; [lia|]. split; auto.
  - cbn [length] in *. rewrite Nat2Z.inj_succ in *. destruct IH as [I1 I2]; [lia|]. cbn [fsum].
    pose proof (val_bounds p v) as B1. pose proof (val_bounds p (fsum l)) as B2.
    assert (E : val (v + fsum l)%F = val v + val (fsum l)). { rewrite val_add. apply Z.mod_small. lia. }
    split; [lia|]. split.
    + intros E0. rewrite E0, (val_0 p) in E. assert (E1 : val v = 0) by lia. assert (E2 : val (fsum l) = 0) by lia.
      constructor; [|apply I2]; apply F_eq; rewrite (val_0 p); auto.
    + intros HF. inversion HF; subst. rewrite (proj2 I2) by auto. ring.
Qed.

Definition all0 (e : env) (l : list AV) : bool := forallb (fun a => Fis0 (e a)) l.
Lemma all0_spec (e : env) l : all0 e l = true <-> Forall (fun v => v = F0) (map e l).
Proof.
  unfold all0. rewrite forallb_forall, Forall_map, Forall_forall. split; intros H x Hx; specialize (H x Hx).
  - now apply Fis0_true in H.
  - now apply Fis0_true.
Qed.
Lemma h_big_is_zero_positive L (Pre : env -> Prop) (Hon : Prop) (a : ovi p) : incl (o_limbs a) L ->
  (Hon -> o_limbs a <> [] /\ (o_bits a + Nat.log2 (length (o_limbs a)) < CAPACITY p)%nat) ->
  hcalc L Pre Hon (big_is_zero_positive a) (fun _ => True)
    (fun e o => Forall (fun x => val (e x) <= 2 ^ Z.of_nat (o_bits a)) (o_limbs a) -> e o = fbool (all0 e (o_limbs a))) one.
Proof.
  intros HI HH. unfold big_is_zero_positive.
  apply h_assert_bind. { intros Hh _. destruct (HH Hh) as [H1 _]. destruct (o_limbs a); [contradiction|reflexivity]. }
  intros Hk. apply h_assert_bind. { intros Hh _. apply Nat.ltb_lt, HH, Hh. }
  intros Hb. apply Nat.ltb_lt in Hb. apply negb_true_iff, Nat.eqb_neq in Hk.
  eapply h_bind; [apply calc_h, (calc_sum lb L Pre (map Existing (o_limbs a))); now apply qin_existing|]. cbv beta. intros s _.
  eapply h_post; [apply (h_is_zero lb Hp)| | |]; cbv beta.
  - apply in_or_app. left. now left.
  - auto.
  - intros e o _ [_ E] H HF. rewrite H, E, qe_existing. f_equal.
    destruct (fsum_val (map e (o_limbs a)) (2 ^ Z.of_nat (o_bits a))) as [_ HZ].
    + apply Z.lt_le_incl, pow2_pos.
    + now apply Forall_map.
    + rewrite map_length. set (k := length (o_limbs a)) in *. pose proof (Nat.log2_spec k ltac:(lia)) as [_ Hlog].
      assert (K : Z.of_nat k < 2 ^ Z.of_nat (S (Nat.log2 k))).
      { apply Nat2Z.inj_lt in Hlog. rewrite Nat2Z.inj_pow in Hlog. exact Hlog. }
      pose proof (pow2_le_p lb Hlb Hlb2 (o_bits a + S (Nat.log2 k)) ltac:(clear - Hb; lia)) as HPP. rewrite pow2_add in HPP.
      pose proof (pow2_pos (o_bits a)). nia.
    + apply eq_true_iff_eq. rewrite Fis0_true, HZ. symmetry. apply all0_spec.
  - intros o _ x Hx. apply in_or_app; auto.
Qed.
(** the per-limb zero test *)
Lemma h_big_is_zero L (Pre : env -> Prop) (Hon : Prop) a : incl a L -> (Hon -> a <> []) ->
  hcalc L Pre Hon (big_is_zero a) (fun _ => a <> []) (fun e o => e o = fbool (all0 e a)) one.
Proof.
  intros Ha HH. unfold big_is_zero. destruct a as [|a0 a].
  { split; [intros s o s' _ H; discriminate|]. intros _ _ Hh. now contradiction (HH Hh). }
  eapply h_bind; [apply (h_is_zero lb Hp L Pre Hon a0); apply Ha; now left|].
  cbv beta. intros z _.
  eapply h_post; [apply h_foldM with (I := fun _ _ => True) (cs := one)
    (J := fun e done o => e o = fbool (Fis0 (e a0) && all0 e done))| | |]; cbv beta; auto.
  - intros done x rest o E _.
    assert (Hx : In x a) by (rewrite E; apply in_or_app; right; now left).
    eapply h_bind; [apply (h_is_zero lb Hp _ _ Hon x); apply in_or_app; right; apply in_or_app; right; apply Ha; now right|].
    cbv beta. intros z2 _. eapply h_post; [apply calc_h, (calc_mul lb _ _ (Existing z2) (Existing o)); cbn; auto| | |]; cbv beta; auto.
    + cbn [qe]. intros e o2 _ ((_ & E1) & E2) E3. rewrite E3, E1, E2. unfold all0. rewrite forallb_app. cbn [forallb].
      rewrite andb_true_r. destruct (Fis0 (e x)), (Fis0 (e a0)), (forallb _ done); cbn [andb fbool]; ring.
    + intros o2 _ w Hw. apply in_or_app; auto.
  - intros e [_ E]. unfold all0. cbn [forallb]. rewrite andb_true_r. exact E.
  - intros w [<-|[]]. apply in_or_app. left. now left.
  - intros o _. discriminate.
  - intros o _ w Hw. apply in_or_app; auto.
Qed.
(** for proper digits, zero is zero *)
Lemma undigits_zero n (ds : list Z) : Forall (fun d => 0 <= d) ds -> (undigits n ds = 0 <-> Forall (fun d => d = 0) ds).
Proof.
  pose proof (pow2_pos n) as HB.
  assert (NN : forall l, Forall (fun d => 0 <= d) l -> 0 <= undigits n l). { induction 1; cbn [undigits]; nia. }
  induction 1 as [|d ds Hd H IH]; cbn [undigits]; [split; auto|]. pose proof (NN _ H). split.
  - intros E. assert (d = 0) by nia. assert (undigits n ds = 0) by nia. constructor; auto. now apply IH.
  - intros HF. inversion HF; subst. rewrite (proj2 IH) by auto. lia.
Qed.
Lemma proper_all0 n (e : env) (c : crt) x : proper n e c x -> all0 e (c_limbs c) = (x =? 0).
Proof.
  intros (A1 & A2 & A3 & A4). apply eq_true_iff_eq. rewrite all0_spec, Z.eqb_eq, A3, undigits_zero.
  - rewrite !Forall_map. split; intros H; eapply Forall_impl; try exact H; cbv beta; intros a Ha.
    + now rewrite Ha, (val_0 p).
    + apply F_eq. now rewrite (val_0 p).
  - apply Forall_map. apply Forall_forall. intros a _. apply val_bounds.
Qed.
Lemma proper_le n (e : env) (c : crt) x : proper n e c x -> Forall (fun a => val (e a) <= 2 ^ Z.of_nat (c_bits c)) (c_limbs c).
Proof. intros (A1 & A2 & A3 & A4). rewrite A1. eapply Forall_impl; [|exact A2]. cbv beta. intros; lia. Qed.

(** equality of all limbs *)
Definition alleq (e : env) (a b : list AV) : bool := forallb (fun xy => Feqb (e (fst xy)) (e (snd xy))) (combine a b).
Lemma fbool_mul (b c : bool) : (fbool b * fbool c : Fp)%F = fbool (b && c).
Proof. destruct b, c; cbn [andb fbool]; ring. Qed.
Lemma h_big_is_equal L (Pre : env -> Prop) (Hon : Prop) a b : incl a L -> incl b L -> (Hon -> length a = length b /\ a <> []) ->
  hcalc L Pre Hon (big_is_equal a b) (fun _ => length a = length b /\ a <> []) (fun e o => e o = fbool (alleq e a b)) one.
Proof.
  intros Ha Hb HH. unfold big_is_equal. destruct a as [|a0 a].
  { split; [intros s o s' _ H; discriminate|]. intros _ _ Hh. destruct (HH Hh) as [_ H]. now contradiction H. }
  destruct b as [|b0 b].
  { split; [intros s o s' _ H; discriminate|]. intros _ _ Hh. destruct (HH Hh) as [H _]. discriminate. }
  eapply h_bind; [apply calc_h, (calc_is_equal lb Hp L Pre (Existing a0) (Existing b0)); cbn; [apply Ha|apply Hb]; now left|].
  cbv beta. intros z _. apply h_assert_bind. { intros Hh _. destruct (HH Hh) as [H _]. apply Nat.eqb_eq. cbn in H. lia. }
  intros HL. apply Nat.eqb_eq in HL.
  eapply h_post; [apply h_foldM with (I := fun _ _ => True) (cs := one)
    (J := fun e done o => e o = fbool (Feqb (e a0) (e b0) && forallb (fun xy => Feqb (e (fst xy)) (e (snd xy))) done))| | |]; cbv beta; auto.
  - intros done [x y] rest o E _. cbn [fst snd].
    assert (Hx : In x a /\ In y b).
    { assert (In (x, y) (combine a b)) by (rewrite E; apply in_or_app; right; now left). split; [eapply in_combine_l|eapply in_combine_r]; eauto. }
    eapply h_bind; [apply calc_h, (calc_is_equal lb Hp _ _ (Existing x) (Existing y)); cbn [qin]; apply in_or_app; right; apply in_or_app; right; [apply Ha|apply Hb]; right; tauto|].
    cbv beta. intros z2 _. eapply h_post; [apply calc_h, (calc_mul lb _ _ (Existing z2) (Existing o)); cbn; auto| | |]; cbv beta; auto.
    + cbn [qe]. intros e o2 _ ((_ & E1) & E2) E3. rewrite E3, E1, E2, fbool_mul. f_equal. rewrite forallb_app. cbn [forallb fst snd].
      rewrite andb_true_r. destruct (Feqb (e x) (e y)), (Feqb (e a0) (e b0)), (forallb _ done); reflexivity.
    + intros o2 _ w Hw. apply in_or_app; auto.
  - cbn [qe]. intros e [_ E]. cbn [forallb]. rewrite andb_true_r. exact E.
  - intros w [<-|[]]. apply in_or_app. left. now left.
  - intros o _. cbn [length]. split; [lia|discriminate].
  - intros o _ w Hw. apply in_or_app; auto.
Qed.
Lemma alleq_spec (e : env) a : forall b, length a = length b -> alleq e a b = true <-> map e a = map e b.
Proof.
  induction a as [|x a IH]; intros [|y b] HL; cbn in HL; try discriminate; [now split|]. unfold alleq in *. cbn [combine forallb map fst snd].
  rewrite andb_true_iff, Feqb_eq, IH by lia. split; [intros [-> ->]; auto|intros [= -> ->]; auto].
Qed.
Lemma proper_alleq n (e : env) (a b : crt) x y : proper n e a x -> proper n e b y -> length (c_limbs a) = length (c_limbs b) ->
  alleq e (c_limbs a) (c_limbs b) = (x =? y).
Proof.
  intros (A1 & A2 & A3 & A4) (B1 & B2 & B3 & B4) HL. apply eq_true_iff_eq. rewrite alleq_spec, Z.eqb_eq by auto. split; intros H.
  - rewrite A3, B3, <- !(map_map e val), H. reflexivity.
  - assert (E : map (fun c => val (e c)) (c_limbs a) = map (fun c => val (e c)) (c_limbs b)).
    { rewrite (digits_unique n (map (fun c => val (e c)) (c_limbs a))), (digits_unique n (map (fun c => val (e c)) (c_limbs b))).
      - rewrite !map_length, HL, <- A3, <- B3, H. reflexivity.
      - apply Forall_map. eapply Forall_impl; [|exact B2]. cbv beta. intros c Hc. split; auto. apply val_bounds.
      - apply Forall_map. eapply Forall_impl; [|exact A2]. cbv beta. intros c Hc. split; auto. apply val_bounds. }
    rewrite <- (map_map e val), <- (map_map e val (c_limbs b)) in E. rewrite <- (map_of_Z_val (map e (c_limbs a))), E, map_of_Z_val. reflexivity.
Qed.

(** parity *)
Lemma h_big_is_even L (Pre : env -> Prop) (Hon : Prop) (a : ovi p) n a0 rest : o_limbs a = a0 :: rest -> incl (o_limbs a) L ->
  (1 <= n <= CAPACITY p)%nat -> (Hon -> Pre hval -> val (hval a0) < 2 ^ Z.of_nat n) ->
  hcalc L Pre Hon (big_is_even lb a n) (fun _ => True) (fun e o => val (e a0) < 2 ^ Z.of_nat n /\ e o = fbool (Z.even (val (e a0)))) one.
Proof.
  intros Ea HI Hn HH. unfold big_is_even. rewrite Ea. cbn [nth_error]. apply h_lift_bind; [eauto|]. intros x [= <-].
  assert (Ia : In a0 L) by (apply HI; rewrite Ea; now left).
  eapply h_bind with (P1 := fun _ => True) (c1 := one) (R1 := fun e o => val (e a0) < 2 ^ Z.of_nat n /\ e o = of_Z p (val (e a0) mod 2)).
  { split.
    - eapply sound_weaken; [apply (get_last_bit_sound lb Hp Hlb Hlb2 a0 n); apply (pow2_le_p lb Hlb Hlb2); lia|auto|]. cbv beta. intros sg o _ [H1 H2] _. split; auto.
      rewrite <- H2. symmetry. apply of_Z_val.
    - intros HG Hpre Hh. rewrite Forall_forall in HG. pose proof (HG _ Ia) as Ga.
      assert (CAPACITY p <= NUM_BITS p)%nat by (unfold NUM_BITS; lia).
      eapply comp_weaken; [apply (get_last_bit_comp lb Hp Hlb Hlb2 a0 (hval a0) n Ga)| | |]; cbv beta; auto; [lia| | |].
      + intros rho HF. rewrite Forall_forall in HF. auto.
      + intros o Ho. split; auto. split; [constructor; eauto using hv_good|]. split; auto. now apply hv_hval.
      + intros rho o _ _ Ho. constructor; auto. }
  cbv beta. intros b _. eapply h_post; [apply calc_h, (calc_not lb _ _ (Existing b)); cbn; auto| | |]; cbv beta; auto.
  - cbn [qe]. intros e o _ [_ [E1 E2]] E. split; auto. rewrite E, E2. rewrite Zmod_even. destruct (Z.even (val (e a0))); cbn [fbool]; [|].
    + change (of_Z p 0) with (F0 : Fp). ring.
    + change (of_Z p 1) with (F1 : Fp). ring.
  - intros o _ w Hw. apply in_or_app; auto.
Qed.
Lemma proper_even n (e : env) (c : crt) x a0 rest : (1 <= n)%nat -> c_limbs c = a0 :: rest -> proper n e c x -> Z.even (val (e a0)) = Z.even x.
Proof.
  intros Hn E (A1 & A2 & A3 & A4). rewrite A3, E. cbn [map undigits]. rewrite Z.even_add, Z.even_mul.
  assert (Z.even (2 ^ Z.of_nat n) = true) as ->. { rewrite Z.even_pow by lia. reflexivity. }
  cbn [orb]. destruct (Z.even (val (e a0))); reflexivity.
Qed.

(** constants *)
Lemma modulus_is : modulus (p:=p) = Z.pos p.
Proof.
  unfold modulus, fe_to_biguint. rewrite val_opp, (val_1 _ Hp). pose proof (prime_ge_2 _ Hp).
  rewrite Z.mod_opp_l_nz; rewrite ?Z.mod_small by lia; lia.
Qed.
Lemma h_fixed_crt_assign L (Pre : env -> Prop) (Hon : Prop) v k n : (64 <= n < 128)%nat -> (n <= CAPACITY p)%nat -> (1 <= k)%nat ->
  0 <= v < 2 ^ Z.of_nat (n * k) ->
  hcalc L Pre Hon (fixed_crt_assign v k n (modulus (p:=p))) (fun c => length (c_limbs c) = k /\ c_bits c = n /\ c_val c = v)
    (fun e c => proper n e c v /\ map e (c_limbs c) = map (of_Z p) (digits n k v)) ccells.
Proof.
  intros Hn Hn2 Hk Hv. unfold fixed_crt_assign. apply h_lift_bind.
  { intros. unfold decompose_biguint. rewrite decompose_biguint_limbs_correct by lia. cbn. eauto. }
  intros ls Hls. unfold decompose_biguint in Hls. rewrite decompose_biguint_limbs_correct in Hls by lia. injection Hls as <-.
  eapply h_bind. { apply h_mapM with (P := fun _ _ => True) (R := fun e x o => e o = x) (cs := one). intros x _. apply calc_h, calc_load_constant. }
  cbv beta. intros al Hal. apply Forall2_len in Hal. rewrite map_length, digits_length in Hal.
  apply h_lift_bind. { intros. unfold biguint_to_fe. rewrite modulus_is. pose proof (Z.mod_pos_bound v (Z.pos p) ltac:(lia)).
    destruct (Z.leb_spec 0 (v mod Z.pos p)); [|lia]. destruct (Z.ltb_spec (v mod Z.pos p) (Z.pos p)); [|lia]. cbn. eauto. }
  intros fn Hfn. unfold biguint_to_fe in Hfn. rewrite modulus_is in Hfn. destruct (_ && _); [|discriminate]. injection Hfn as <-.
  eapply h_bind. { apply calc_h, calc_load_constant. } cbv beta. intros an _. apply h_ret.
  - cbn. auto.
  - cbn. intros x [<-|Hx]; [now left|right]. apply in_or_app. left. now rewrite flat_map_one.
  - cbn. intros e [[_ E1] E2].
    assert (EL : map e al = map (of_Z p) (digits n k v)).
    { clear - E1. revert E1. generalize (map (of_Z p) (digits n k v)). intros l H. induction H; cbn [map]; f_equal; auto. }
    split; auto. unfold proper, c_bits, c_limbs; cbn.
    assert (EV : map (fun a => val (e a)) al = digits n k v).
    { rewrite <- (map_map e val), EL, map_map. rewrite <- (map_id (digits n k v)) at 2. apply map_ext_in. intros d Hd.
      pose proof (digits_bound n k v) as HB. rewrite Forall_forall in HB. specialize (HB d Hd). apply val_of_Z_small.
      pose proof (pow2_le_p lb Hlb Hlb2 n ltac:(lia)). lia. }
    split; auto. split; [|split].
    + apply Forall_map with (f := fun a => val (e a)) (P := fun d => d < 2 ^ Z.of_nat n). rewrite EV.
      eapply Forall_impl; [|apply digits_bound]. cbv beta. intros; lia.
    + rewrite EV, undigits_digits, Z.mod_small; auto.
    + rewrite E2. apply of_Z_eq_iff. apply Z.mod_mod. lia.
Qed.
End Cmp.
