(** Soundness and completeness of division, decomposition and rotation in the range chip. *)
From Coq Require Import ZArith Znumtheory Lia List Bool Ring.
From Verif Require Import Field Spec Context ContextProofs Utils Logic Gate GateProofs ChainProofs IPProofs BitProofs PowProofs Range RangeProofs RegionGets RangeProofs2.
Import ListNotations.
Local Open Scope Z_scope.
Local Open Scope monad_scope.

Section RangeProofs3.
Context {p : positive} (lb : nat).
Context (Hp : prime (Z.pos p)).
Notation Fp := (F p).
Notation sound := (sound (p:=p) lb).
Notation comp := (comp (p:=p) lb).
Add Ring Fring : (F_ring p) (morphism (F_morph p), constants [Fcst]).
Context (Hlb : (1 <= lb < 64)%nat) (Hlb2 : (2 * lb <= CAPACITY p)%nat).

Ltac pteq := intros s; unfold region_gets, gets, bind; cbn [mapM]; unfold bind, ret; cbn [Z.of_nat Pos.of_succ_nat Pos.succ Z.opp];
  repeat match goal with |- context [match ?X with Some _ => _ | None => _ end] => destruct X as [[? ?]|]; try reflexivity end.
Lemma pow_split n m : 2 ^ Z.of_nat (n + m) = 2 ^ Z.of_nat n * 2 ^ Z.of_nat m.
Proof. apply pow2_add. Qed.

Lemma div_mod_unique a b q r : a = b * q + r -> 0 <= r < b -> q = a / b /\ r = a mod b.
Proof. intros H1 H2. split; [eapply Z.div_unique_pos|eapply Z.mod_unique_pos]; eauto. Qed.

(** no wrap: [b * x + y] as an integer *)
Lemma val_mul_add (b x y : Fp) : val b * val x + val y < Z.pos p -> val (b * x + y)%F = val b * val x + val y.
Proof.
  intros H. rewrite <- (of_Z_val p b) at 1. rewrite <- (of_Z_val p x) at 1. rewrite <- (of_Z_val p y) at 1.
  rewrite <- of_Z_mul, <- of_Z_add. apply val_of_Z_small. pose proof (val_bounds p b). pose proof (val_bounds p x). pose proof (val_bounds p y). nia.
Qed.

Definition dm_region (a : qcell p) (rm fb dv : Fp) : M p (AV p * AV p) :=
  assign_region [Witness rm; Constant fb; Witness dv; a] [0] ;;;
  rem <- ctx_get (-4) ;; div <- ctx_get (-2) ;; ret (rem, div).
Lemma dm_region_sound a rm fb dv : sound (dm_region a rm fb dv) (fun _ => True)
  (fun sg o => exists x, qsem sg a x /\ x = (fb * avs sg (snd o) + avs sg (fst o))%F).
Proof.
  eapply sound_ext; [|eapply (sound_bind lb (region_gets [Witness rm; Constant fb; Witness dv; a] [0] [4;2]%nat)
    (fun xs => match xs with [x; y] => ret (x, y) | _ => panic end)); [apply sound_region_gets; [nonneg_offs|repeat constructor; cbn; lia]|]].
  - unfold dm_region. pteq.
  - intros xs _. destruct xs as [|x [|y [|? ?]]]; try apply sound_panic. apply sound_ret; auto.
    intros sg (v & [Hq Hg] & HF). inversion_clear HF as [|? ? ? ? E1 HF']. inversion_clear HF' as [|? ? ? ? E2 _]. cbn [length Nat.sub fst snd] in *.
    cellv Hq 1%nat. cellv Hq 3%nat. gatev Hg 0%nat. exists (v 3%nat). split; auto. rewrite <- G, C, E1, E2. ring.
Qed.
Lemma dm_region_comp a x rm fb dv : qh a x -> x = (fb * dv + rm)%F -> comp (fun rho => q_ok rho a) (dm_region a rm fb dv)
  (fun o => hv (fst o) rm /\ hv (snd o) dv) (fun rho o => av_ok rho (fst o) /\ av_ok rho (snd o)).
Proof.
  intros Ha Hx.
  eapply comp_ext; [|eapply (comp_bind lb (region_gets [Witness rm; Constant fb; Witness dv; a] [0] [4;2]%nat)
    (fun xs => match xs with [x; y] => ret (x, y) | _ => panic end)); [apply (comp_region_gets lb _ _ _ [Witness rm; Witness dv])| |]].
  - unfold dm_region. pteq.
  - cell_oks.
  - offs_in.
  - repeat constructor; cbn; lia.
  - gates. rewrite Hx. ring.
  - intros rho H1. repeat (apply Forall_cons || apply Forall_nil); cbn [q_ok]; auto.
  - intros xs HF. cbv beta in HF. inversion_clear HF as [|? x1 ? ? [E1 N1] HF']. inversion_clear HF' as [|? x2 ? ? [E2 N2] HF'']. inversion_clear HF''.
    apply comp_ret; [split; split; cbn; auto|]. intros rho [_ HF]. inversion_clear HF as [|? ? O1 HF']. inversion_clear HF'. auto.
Qed.

Lemma div_mod_sound a b n : 0 < b -> 2 ^ Z.of_nat n + b <= Z.pos p -> 2 ^ Z.of_nat (S (pad_bits lb (bits b))) <= Z.pos p ->
  2 ^ Z.of_nat (S (pad_bits lb (bits (2 ^ Z.of_nat n / b + 1)))) <= Z.pos p ->
  sound (div_mod lb a b n) (fun _ => True)
   (fun sg o => exists x, qsem sg a x /\ val (avs sg (fst o)) = val x / b /\ val (avs sg (snd o)) = val x mod b).
Proof.
  intros Hb Hw Hn1 Hn2. unfold div_mod. apply sound_lift_bind. intros x0 _. apply sound_assert_bind. intros _. cbv zeta.
  apply sound_lift_bind. intros dv _. apply sound_lift_bind. intros rm _. apply sound_lift_bind. intros fb Efb. apply biguint_to_fe_val in Efb.
  pose proof (pow2_pos n).
  assert (0 <= 2 ^ Z.of_nat n / b) by (apply Z.div_pos; lia).
  assert (b * (2 ^ Z.of_nat n / b) <= 2 ^ Z.of_nat n) by (apply Z.mul_div_le; lia).
  eapply sound_ext; [|eapply (sound_bind lb (dm_region a rm fb dv) (fun o => check_big_less_than_safe lb (snd o) (2 ^ Z.of_nat n / b + 1) ;;;
     check_big_less_than_safe lb (fst o) b ;;; ret (snd o, fst o))); [apply dm_region_sound|]].
  { intros s. unfold dm_region, bind, ret. destruct (assign_region _ _ s) as [[? s1]|]; auto. destruct (ctx_get (-4) s1) as [[? s2]|]; auto.
    destruct (ctx_get (-2) s2) as [[? s3]|]; auto. }
  intros [rem div] _. cbn [fst snd].
  eapply sound_bind; [apply check_big_less_than_safe_sound; auto; lia|]. intros [] _.
  eapply sound_bind; [apply check_big_less_than_safe_sound; auto; lia|]. intros [] _.
  apply sound_ret; auto. cbn [fst snd]. intros sg K1 K2 (x & Hx & E). exists x. split; auto.
  pose proof (val_bounds p (avs sg rem)). pose proof (val_bounds p (avs sg div)).
  assert (EV : val x = b * val (avs sg div) + val (avs sg rem)). { rewrite E, val_mul_add; rewrite Efb; [reflexivity|]. nia. }
  apply (div_mod_unique (val x) b) in EV; [auto|lia].
Qed.
Lemma div_mod_comp a b x n : qh a x -> 0 < b -> val x < 2 ^ Z.of_nat n -> (pad_bits lb (bits b) <= CAPACITY p)%nat ->
  (pad_bits lb (bits (2 ^ Z.of_nat n / b + 1)) <= CAPACITY p)%nat ->
  comp (fun rho => q_ok rho a) (div_mod lb a b n)
   (fun o => hv (fst o) (of_Z p (val x / b)) /\ hv (snd o) (of_Z p (val x mod b))) (fun rho o => av_ok rho (fst o) /\ av_ok rho (snd o)).
Proof.
  intros Ha Hb Hx Hn1 Hn2. pose proof (pad_lt_p _ Hlb Hlb2 b ltac:(lia) Hn1) as Hbp. pose proof (val_bounds p x) as Bx. pose proof (pow2_pos n).
  assert (0 <= 2 ^ Z.of_nat n / b) by (apply Z.div_pos; lia).
  pose proof (Z.mod_pos_bound (val x) b Hb). pose proof (Z_div_mod_eq_full (val x) b) as ED.
  assert (D1 : 0 <= val x / b < Z.pos p). { split; [apply Z.div_pos; lia|]. nia. }
  assert (D2 : val x / b < 2 ^ Z.of_nat n / b + 1). { assert (val x / b <= 2 ^ Z.of_nat n / b) by (apply Z.div_le_mono; lia). lia. }
  unfold div_mod. eapply comp_lift_bind; [eauto using qh_val|]. apply comp_assert_bind; [now apply Z.ltb_lt|]. cbv zeta. unfold fe_to_biguint.
  eapply comp_lift_bind; [apply biguint_to_fe_some; lia|]. eapply comp_lift_bind; [apply biguint_to_fe_some; lia|].
  eapply comp_lift_bind; [apply biguint_to_fe_some; lia|].
  eapply comp_ext; [|eapply (comp_bind lb (dm_region a (of_Z p (val x mod b)) (of_Z p b) (of_Z p (val x / b)))
     (fun o => check_big_less_than_safe lb (snd o) (2 ^ Z.of_nat n / b + 1) ;;;
     check_big_less_than_safe lb (fst o) b ;;; ret (snd o, fst o))); [apply (dm_region_comp a x); auto| |]].
  { intros s. unfold dm_region, bind, ret. destruct (assign_region _ _ s) as [[? s1]|]; auto. destruct (ctx_get (-4) s1) as [[? s2]|]; auto.
    destruct (ctx_get (-2) s2) as [[? s3]|]; auto. }
  { rewrite <- of_Z_mul, <- of_Z_add, <- ED. symmetry. apply of_Z_val. }
  { auto. }
  intros [rem div] [K1 K2]. cbn [fst snd] in *.
  eapply comp_bind; [apply (check_big_less_than_safe_comp lb Hp Hlb Hlb2 div _ _ K2); rewrite ?val_of_Z_small by lia; auto; lia|intros rho (_ & _ & K3); exact K3|].
  intros [] _. eapply comp_bind; [apply (check_big_less_than_safe_comp lb Hp Hlb Hlb2 rem _ _ K1); rewrite ?val_of_Z_small by lia; auto; lia|intros rho ((_ & K3 & _) & _); exact K3|].
  intros [] _. apply comp_ret; cbn [fst snd]; auto. intros rho (((_ & K3 & K4) & _) & _). auto.
Qed.

(** ** get_last_bit *)
Lemma get_last_bit_sound (a : AV p) n : 2 ^ Z.of_nat n <= Z.pos p -> sound (get_last_bit lb a n) (fun _ => True)
  (fun sg o => val (avs sg a) < 2 ^ Z.of_nat n /\ val (avs sg o) = val (avs sg a) mod 2).
Proof.
  intros HN. unfold get_last_bit. apply sound_lift_bind. intros v0 _. cbv zeta.
  eapply sound_ext; [|eapply (sound_bind lb (region_gets [Witness (of_Z p (Z.b2z (Z.testbit (fe_to_biguint v0) 0)));
      Witness (of_Z p (Z.shiftr (fe_to_biguint v0) 1)); Constant (of_Z p 2); Existing a] [0] [3; 4]%nat)
    (fun xs => match xs with [half; bit] => assert_ (Nat.ltb 0 n) ;;; range_check lb half (n - 1) ;;; assert_bit bit ;;; ret bit | _ => panic end));
     [apply sound_region_gets; [nonneg_offs|repeat constructor; cbn; lia]|]].
  { pteq. }
  intros xs _. destruct xs as [|h [|b [|? ?]]]; try apply sound_panic.
  apply sound_assert_bind. intros Hn0. apply Nat.ltb_lt in Hn0.
  eapply sound_bind; [apply range_check_sound; auto|]. intros [] _.
  eapply sound_bind; [apply assert_bit_sound; auto|]. intros [] _. apply sound_ret; auto.
  intros sg HB HR (v & [Hq Hg] & HF). inversion_clear HF as [|? ? ? ? E1 HF']. inversion_clear HF' as [|? ? ? ? E2 _]. cbn [length Nat.sub] in *.
  cellv Hq 2%nat. cellv Hq 3%nat. gatev Hg 0%nat. rewrite C in G. rewrite <- E1, <- E2 in G. rewrite <- C0, <- G.
  apply (val_bit Hp) in HB. cbn in HB. pose proof (val_bounds p (avs sg h)).
  replace n with (S (n - 1)) in HN |- * by lia. rewrite Nat2Z.inj_succ, Z.pow_succ_r in * by lia. 
  assert (P1 : 1 <= 2 ^ Z.of_nat (n - 1)) by (pose proof (pow2_pos (n - 1)); lia).
  assert (E : val (avs sg b + avs sg h * of_Z p 2)%F = 2 * val (avs sg h) + val (avs sg b)).
  { rewrite <- (of_Z_val p (avs sg b)) at 1. rewrite <- (of_Z_val p (avs sg h)) at 1. rewrite <- of_Z_mul, <- of_Z_add.
    rewrite val_of_Z_small; lia. }
  rewrite E. split; [lia|]. apply (div_mod_unique _ 2 (val (avs sg h))); lia.
Qed.
Lemma get_last_bit_comp (a : AV p) x n : hv a x -> (1 <= n <= NUM_BITS p)%nat -> val x < 2 ^ Z.of_nat n ->
  comp (fun rho => av_ok rho a) (get_last_bit lb a n) (fun o => hv o (of_Z p (val x mod 2))) (fun rho o => av_ok rho o).
Proof.
  intros Ha Hn Hx. unfold get_last_bit. eapply comp_lift_bind; [eauto using hv_val|]. cbv zeta. unfold fe_to_biguint.
  pose proof (val_bounds p x) as Bx.
  assert (EB : Z.b2z (Z.testbit (val x) 0) = val x mod 2) by (now rewrite Z.bit0_mod).
  rewrite EB, Z.shiftr_div_pow2 by lia. change (2 ^ 1) with 2.
  eapply comp_ext; [|eapply (comp_bind lb (region_gets [Witness (of_Z p (val x mod 2)); Witness (of_Z p (val x / 2)); Constant (of_Z p 2); Existing a] [0] [3; 4]%nat)
    (fun xs => match xs with [half; bit] => assert_ (Nat.ltb 0 n) ;;; range_check lb half (n - 1) ;;; assert_bit bit ;;; ret bit | _ => panic end));
     [apply (comp_region_gets lb _ _ _ [Witness (of_Z p (val x / 2)); Witness (of_Z p (val x mod 2))])| |]].
  - pteq.
  - cell_oks. apply Ha.
  - offs_in.
  - repeat constructor; cbn; lia.
  - gates. rewrite <- of_Z_mul, <- of_Z_add. rewrite <- (of_Z_val p x) at 3. f_equal. pose proof (Z_div_mod_eq_full (val x) 2). lia.
  - intros rho H1. repeat (apply Forall_cons || apply Forall_nil); cbn [q_ok]; auto.
  - intros xs HF. cbv beta in HF. inversion_clear HF as [|? h ? ? [E1 N1] HF']. inversion_clear HF' as [|? b ? ? [E2 N2] HF'']. inversion_clear HF''.
    assert (Hh : hv h (of_Z p (val x / 2))) by (split; auto). assert (Hb : hv b (of_Z p (val x mod 2))) by (split; auto).
    pose proof (Z.mod_pos_bound (val x) 2 ltac:(lia)). pose proof (Z_div_mod_eq_full (val x) 2). pose proof (prime_ge2 Hp).
    apply comp_assert_bind; [apply Nat.ltb_lt; lia|].
    eapply comp_bind; [apply (range_check_comp lb Hp Hlb Hlb2 h _ (n - 1) Hh)| |].
    + unfold NUM_BITS in Hn. lia.
    + rewrite val_of_Z_small by lia. replace n with (S (n - 1)) in Hx by lia. rewrite Nat2Z.inj_succ, Z.pow_succ_r in Hx by lia. lia.
    + intros rho [_ HF]. inversion_clear HF; auto.
    + intros [] _. eapply comp_bind; [apply (assert_bit_comp lb Hp b _ Hb); apply is_bit_of_digit; lia| |].
      * intros rho [[_ HF] _]. inversion_clear HF as [|? ? O1 HF']. inversion_clear HF'; auto.
      * intros [] _. apply comp_ret; auto. intros rho [[[_ HF] _] _]. inversion_clear HF as [|? ? O1 HF']. inversion_clear HF'; auto.
Qed.

(** ** decompose_le, limbs_to_num *)
Lemma step_take_spec k n : (1 <= k)%nat -> (k * (n - 1) < NUM_BITS p)%nat -> step_take k n (pow_of_two_table (p:=p)) = Some (pows k n).
Proof.
  intros Hk Hn. unfold step_take. destruct (Nat.eqb_spec k 0); [lia|]. f_equal. rewrite pow_table_spec, map_length, seq_length by auto.
  assert (HC : (n <= ceil_div (NUM_BITS p) k)%nat).
  { destruct n as [|n]; [lia|]. unfold ceil_div. apply Nat.div_le_lower_bound; lia. }
  rewrite firstn_map, firstn_seq by lia. unfold pows. apply map_ext_in. intros i Hi. apply in_seq in Hi.
  rewrite nth_indep with (d' := of_Z p (2 ^ Z.of_nat 0)).
  - rewrite (map_nth (fun i => of_Z p (2 ^ Z.of_nat i))), seq_nth; [reflexivity|nia].
  - rewrite map_length, seq_length. nia.
Qed.
Lemma decompose_ok (v : Fp) n k : (1 <= n)%nat -> (1 <= k < 128)%nat -> k <> 64%nat -> decompose v n k = Some (map (of_Z p) (digits k n (val v))).
Proof.
  intros Hn Hk H64. unfold decompose. destruct (Nat.ltb_spec 64 k).
  - unfold decompose_biguint, fe_to_biguint. rewrite decompose_biguint_limbs_correct; auto; try lia. apply val_bounds.
  - rewrite decompose_fe_correct by lia. reflexivity.
Qed.
Lemma decompose_some (v : Fp) n k ds : decompose v n k = Some ds -> (k < 128)%nat /\ k <> 64%nat.
Proof.
  unfold decompose. destruct (Nat.ltb_spec 64 k) as [H|H].
  - unfold decompose_biguint, decompose_biguint_limbs. destruct (Nat.ltb_spec k 128); [lia|]. rewrite andb_false_r. discriminate.
  - unfold decompose_fe_to_u64_limbs, decompose_u64_digits_to_limbs. destruct (Nat.ltb_spec k 64); [lia|]. discriminate.
Qed.

Lemma decompose_le_sound (num : AV p) k n : (1 <= n)%nat -> (k * n <= CAPACITY p)%nat -> sound (decompose_le lb num k n)
  (fun ls => length ls = n) (fun sg ls => val (avs sg num) < 2 ^ Z.of_nat (k * n) /\ map (fun l => val (avs sg l)) ls = digits k n (val (avs sg num))).
Proof.
  intros Hn HC. unfold decompose_le. destruct k as [|k].
  { intros s a s' W H. apply bind_inv in H as (x & s1 & E & _). apply lift_inv in E as [E _]. discriminate. }
  set (kk := S k) in *. rewrite step_take_spec by (unfold NUM_BITS; nia).
  apply sound_lift_bind. intros pw E. injection E as <-. apply sound_lift_bind. intros v _. apply sound_lift_bind. intros ds E.
  pose proof (decompose_some _ _ _ _ E) as [K1 K2]. rewrite decompose_ok in E by lia. injection E as <-.
  eapply sound_bind; [apply inner_product_left_sound; now rewrite !map_length, digits_length, pows_length|].
  intros [acc ls] HL. cbn [fst snd] in *. rewrite !map_length, digits_length in HL.
  eapply sound_bind; [apply sound_constrain_equal|]. intros [] _.
  eapply sound_bind; [apply (sound_iterM lb _ (fun sg l => val (avs sg l) < 2 ^ Z.of_nat kk)); intros; apply range_check_sound; auto|].
  intros [] _. apply sound_ret; auto.
  intros sg HR HE (xs & ys & Fx & Fy & Ho & Hm). apply map_const_qsem in Fy. subst ys.
  assert (Lx : length xs = n) by (rewrite <- Hm, map_length; auto).
  assert (HB : Forall (fun y => 0 <= val y < 2 ^ Z.of_nat kk) xs).
  { rewrite <- Hm. rewrite Forall_map. eapply Forall_impl; [|exact HR]. cbv beta. intros l Hl. pose proof (val_bounds p (avs sg l)). lia. }
  rewrite HE, <- Lx in Ho. apply limbs_int in Ho as (E1 & E2 & E3); auto. 2:{ rewrite Lx. now apply (pow2_le_p lb). }
  rewrite <- Lx. split; [lia|]. rewrite <- E3, <- Hm, map_map. reflexivity.
Qed.
Lemma decompose_le_comp (num : AV p) x k n : hv num x -> (1 <= n)%nat -> (1 <= k < 128)%nat -> k <> 64%nat -> (k <= CAPACITY p)%nat -> (k * (n - 1) < NUM_BITS p)%nat ->
  val x < 2 ^ Z.of_nat (k * n) ->
  comp (fun rho => av_ok rho num) (decompose_le lb num k n)
    (fun ls => Forall2 hv ls (map (of_Z p) (digits k n (val x)))) (fun rho ls => Forall (av_ok rho) ls).
Proof.
  intros Ha Hn Hk H64 HC HB Hx. unfold decompose_le. rewrite step_take_spec by lia. eapply comp_lift_bind; [reflexivity|].
  eapply comp_lift_bind; [eauto using hv_val|]. eapply comp_lift_bind; [apply decompose_ok; auto|].
  set (ds := map (of_Z p) (digits k n (val x))).
  assert (Lds : length ds = n) by (unfold ds; rewrite map_length; apply digits_length).
  assert (Edot : dot ds (pows k n) = x).
  { unfold ds. rewrite <- (digits_length k n (val x)) at 2. rewrite dot_pows, undigits_digits.
    rewrite Z.mod_small by (pose proof (val_bounds p x); lia). apply of_Z_val. }
  eapply comp_bind; [apply (inner_product_left_comp lb (map Witness ds) (map Constant (pows k n)) ds (pows k n)); [apply map_wit_qh|apply map_const_qh|rewrite !map_length, pows_length; auto]| |].
  { intros rho _. split; [apply map_wit_qok|apply map_const_qok]. }
  intros [acc ls] [H1 H2]. cbn [fst snd] in *. rewrite Edot in H1.
  eapply comp_bind; [apply (comp_constrain_equal lb acc num x H1 Ha)|tauto|]. intros [] _.
  eapply comp_bind; [apply (comp_iterM lb (fun l => range_check lb l k) ls (fun rho => Forall (av_ok rho) ls))|tauto|].
  { intros l Hl. apply In_nth_error in Hl as [i Hi].
    destruct (Forall2_nth_l _ _ _ H2 i l Hi) as (v & Hv & Hlv).
    eapply comp_weaken; [apply (range_check_comp lb Hp Hlb Hlb2 l v k Hlv HC)| |auto|auto].
    - unfold ds in Hv. rewrite nth_error_map in Hv. destruct (nth_error (digits k n (val x)) i) as [d|] eqn:Ed; [|discriminate].
      injection Hv as <-. pose proof (digits_bound k n (val x)) as HD. rewrite Forall_forall in HD.
      pose proof (HD d (nth_error_In _ _ Ed)) as Hd. pose proof (pow2_le_p lb Hlb Hlb2 k HC). rewrite val_of_Z_small; lia.
    - intros rho HF. rewrite Forall_forall in HF. apply HF. eapply nth_error_In; eauto. }
  intros [] _. apply comp_ret; auto. tauto.
Qed.
Lemma limbs_to_num_sound (limbs : list (AV p)) k : (1 <= k)%nat -> (k * (length limbs - 1) < NUM_BITS p)%nat ->
  sound (limbs_to_num limbs k) (fun _ => True)
   (fun sg o => avs sg o = of_Z p (undigits k (map (fun l => val (avs sg l)) limbs))).
Proof.
  intros Hk HC. unfold limbs_to_num. rewrite step_take_spec by lia. apply sound_lift_bind. intros pw E. injection E as <-.
  eapply sound_weaken; [apply inner_product_sound; now rewrite !map_length, pows_length|auto|].
  intros sg o _ (xs & ys & Fx & Fy & Ho). apply map_const_qsem in Fy. apply map_exist_qsem in Fx. subst.
  rewrite Ho. rewrite <- (map_length (avs sg) limbs) at 1. rewrite dot_pows_val, map_map. reflexivity.
Qed.
Lemma limbs_to_num_comp (limbs : list (AV p)) vs k : Forall2 hv limbs vs -> (1 <= k)%nat -> (k * (length limbs - 1) < NUM_BITS p)%nat ->
  comp (fun rho => Forall (av_ok rho) limbs) (limbs_to_num limbs k) (fun o => hv o (of_Z p (undigits k (map val vs)))) (fun rho o => av_ok rho o).
Proof.
  intros HF Hk HC. unfold limbs_to_num. rewrite step_take_spec by lia. eapply comp_lift_bind; [reflexivity|].
  pose proof (Forall2_len _ _ _ HF) as HL.
  eapply comp_weaken; [apply (inner_product_comp lb (map Existing limbs) (map Constant (pows k (length limbs))) vs (pows k (length limbs)));
    [now apply map_exist_qh|apply map_const_qh|now rewrite !map_length, pows_length]| | |auto].
  - intros rho Ho. split; [now apply map_exist_qok|apply map_const_qok].
  - intros o Ho. rewrite HL, dot_pows_val in Ho. exact Ho.
Qed.

(** ** rotation: soundness *)
Lemma rotate_internal_sound (a : AV p) bit n : sound (const_right_rotate_internal lb a bit n) (fun _ => True)
  (fun sg o => val (avs sg a) < 2 ^ Z.of_nat n /\
     val (avs sg o) = (val (avs sg a) mod 2 ^ Z.of_nat bit) * 2 ^ Z.of_nat (n - bit) + val (avs sg a) / 2 ^ Z.of_nat bit /\
     val (avs sg o) < 2 ^ Z.of_nat n).
Proof.
  unfold const_right_rotate_internal. apply sound_assert_bind. intros HA. apply andb_prop in HA as [HA HN]. apply Nat.ltb_lt in HA. apply Nat.leb_le in HN.
  apply sound_lift_bind. intros v _. cbv zeta. apply sound_assert_bind. intros _.
  apply sound_lift_bind. intros fl _. eapply sound_bind; [apply sound_load_witness|]. intros l _.
  apply sound_lift_bind. intros fr _. eapply sound_bind; [apply sound_load_witness|]. intros r _.
  apply sound_lift_bind. intros pw Epw. apply pow_nth_inv in Epw as [_ ->]; auto.
  eapply sound_bind; [apply mul_add_sound|]. intros vw _. apply sound_assert_bind. intros HB. apply Nat.leb_le in HB.
  eapply sound_bind; [apply range_check_sound; auto|]. intros [] _.
  eapply sound_bind; [apply range_check_sound; auto|]. intros [] _.
  eapply sound_bind; [apply sound_constrain_equal|]. intros [] _.
  apply sound_lift_bind. intros pw Epw. apply pow_nth_inv in Epw as [_ ->]; auto.
  eapply sound_weaken; [apply mul_add_sound|auto|].
  intros sg o _ (x1 & y1 & z1 & X1 & Y1 & Z1 & O1) HE HR HL (x2 & y2 & z2 & X2 & Y2 & Z2 & O2) _ _.
  cbn [qsem] in *. subst x1 y1 z1 x2 y2 z2.
  set (L := avs sg l) in *. set (R := avs sg r) in *. set (n1 := (n - bit)%nat) in *.
  assert (PN : 2 ^ Z.of_nat bit * 2 ^ Z.of_nat n1 = 2 ^ Z.of_nat n) by (rewrite <- pow2_add; f_equal; unfold n1; lia).
  pose proof (pow2_le_p lb Hlb Hlb2 n HN) as HP. pose proof (pow2_pos bit). pose proof (pow2_pos n1).
  pose proof (val_bounds p L). pose proof (val_bounds p R).
  destruct (Nat.eq_dec bit n) as [EB|EB].
  - (* bit = n: the left part is zero *)
    assert (N0 : n1 = O) by (unfold n1; lia). rewrite N0 in *. cbn in HL. assert (ZL : val L = 0) by lia. assert (FL : L = F0) by (apply F_eq; now rewrite val_0).
    assert (EA : avs sg a = R). { rewrite HE, O2, FL. ring. }
    assert (EO : avs sg o = R). { rewrite O1, FL. change (2 ^ Z.of_nat 0) with 1. change (of_Z p 1) with (F1 (p:=p)). ring. }
    rewrite EA, EO. subst bit. change (2 ^ Z.of_nat 0) with 1. rewrite Z.mod_small, Z.div_small by lia. lia.
  - assert (S1 : 2 ^ Z.of_nat bit < Z.pos p). { pose proof (pow2_lt bit n ltac:(lia)). lia. }
    assert (S2 : 2 <= 2 ^ Z.of_nat n1) by (change 2 with (2 ^ Z.of_nat 1) at 1; apply pow2_le; unfold n1; lia).
    assert (EA : val (avs sg a) = 2 ^ Z.of_nat bit * val L + val R).
    { rewrite HE, O2. rewrite (val_mul_add L); rewrite val_of_Z_small by lia; nia. }
    assert (EA2 : val L = val (avs sg a) / 2 ^ Z.of_nat bit /\ val R = val (avs sg a) mod 2 ^ Z.of_nat bit).
    { apply div_mod_unique; auto; lia. }
    destruct EA2 as [<- <-]. split; [nia|].
    assert (EO : val (avs sg o) = val R * 2 ^ Z.of_nat n1 + val L); [|split; [exact EO|nia]].
    rewrite O1. destruct (Nat.eq_dec bit 0) as [->|B0].
    + assert (FR : R = F0) by (apply F_eq; rewrite val_0; cbn in HR; lia). rewrite FR, val_0. rewrite <- (of_Z_val p L) at 1 2.
      replace (F0 * of_Z p (2 ^ Z.of_nat n1) + of_Z p (val L))%F with (of_Z p (val L)) by ring. rewrite val_of_Z_small; lia.
    + assert (2 <= 2 ^ Z.of_nat bit) by (change 2 with (2 ^ Z.of_nat 1) at 1; apply pow2_le; lia).
      rewrite val_mul_add; rewrite val_of_Z_small by nia; nia.
Qed.

(** ** div_mod_var *)
Definition q_det (b : qcell p) : Prop := match b with Existing _ | Constant _ => True | _ => False end.
Lemma q_det_eq b sg x y : q_det b -> qsem sg b x -> qsem sg b y -> x = y.
Proof. destruct b; cbn; intros H; try contradiction; congruence. Qed.

Definition dmv_region (flo fhi x_fe fdv frm : Fp) : M p (AV p * AV p * AV p * AV p) :=
  assign_region [Witness flo; Witness fhi; Constant x_fe; Witness fdv; Witness frm] [0] ;;;
  div_lo <- ctx_get (-5) ;; div_hi <- ctx_get (-4) ;; div <- ctx_get (-2) ;; rem <- ctx_get (-1) ;; ret (div_lo, div_hi, div, rem).
Lemma dmv_region_sound flo fhi x_fe fdv frm : sound (dmv_region flo fhi x_fe fdv frm) (fun _ => True)
  (fun sg o => let '(lo, hi, dv, rm) := o in avs sg dv = (avs sg lo + avs sg hi * x_fe)%F).
Proof.
  eapply sound_ext; [|eapply (sound_bind lb (region_gets [Witness flo; Witness fhi; Constant x_fe; Witness fdv; Witness frm] [0] [5;4;2;1]%nat)
    (fun xs => match xs with [x; y; z; w] => ret (x, y, z, w) | _ => panic end)); [apply sound_region_gets; [nonneg_offs|repeat constructor; cbn; lia]|]].
  - unfold dmv_region. pteq.
  - intros xs _. destruct xs as [|x [|y [|z [|w [|? ?]]]]]; try apply sound_panic. apply sound_ret; auto.
    intros sg (v & [Hq Hg] & HF). inversion_clear HF as [|? ? ? ? E1 HF']. inversion_clear HF' as [|? ? ? ? E2 HF]. inversion_clear HF as [|? ? ? ? E3 HF'].
    cbn [length Nat.sub fst snd] in *. cellv Hq 2%nat. gatev Hg 0%nat. rewrite E1, E2, E3, <- G, C. ring.
Qed.
Lemma dmv_region_comp flo fhi x_fe fdv frm : fdv = (flo + fhi * x_fe)%F -> comp (fun rho => True) (dmv_region flo fhi x_fe fdv frm)
  (fun o => let '(lo, hi, dv, rm) := o in hv lo flo /\ hv hi fhi /\ hv dv fdv /\ hv rm frm)
  (fun rho o => let '(lo, hi, dv, rm) := o in av_ok rho lo /\ av_ok rho hi /\ av_ok rho dv /\ av_ok rho rm).
Proof.
  intros Hx.
  eapply comp_ext; [|eapply (comp_bind lb (region_gets [Witness flo; Witness fhi; Constant x_fe; Witness fdv; Witness frm] [0] [5;4;2;1]%nat)
    (fun xs => match xs with [x; y; z; w] => ret (x, y, z, w) | _ => panic end)); [apply (comp_region_gets lb _ _ _ [Witness flo; Witness fhi; Witness fdv; Witness frm])| |]].
  - unfold dmv_region. pteq.
  - cell_oks.
  - offs_in.
  - repeat constructor; cbn; lia.
  - gates. rewrite Hx. ring.
  - intros rho H1. repeat (apply Forall_cons || apply Forall_nil); cbn [q_ok]; auto.
  - intros xs HF. cbv beta in HF. inversion_clear HF as [|? zz1 ? ? [E1 N1] HF']. inversion_clear HF' as [|? zz2 ? ? [E2 N2] HF''].
    inversion_clear HF'' as [|? zz3 ? ? [E3 N3] HF]. inversion_clear HF as [|? zz4 ? ? [E4 N4] HF']. inversion_clear HF'.
    apply comp_ret; [repeat split; cbn; auto|]. intros rho [_ HF]. inversion_clear HF as [|? ? O1 HF']. inversion_clear HF' as [|? ? O2 HF]. inversion_clear HF as [|? ? O3 HF'].
    inversion_clear HF'. auto.
Qed.

Definition dmv_rest (a b : qcell p) (x : Z) (an bn : nat) (o : AV p * AV p * AV p * AV p) : M p (AV p * AV p) :=
  let '(div_lo, div_hi, div, rem) := o in
  range_check lb div_lo bn ;;;
  (if Nat.leb an bn then assert_is_const div_hi F0 else range_check lb div_hi (an - bn)) ;;;
  bcr0 <- mul_add b (Existing div_lo) (Existing rem) ;;
  hl0 <- div_mod lb (Existing bcr0) x an ;;
  bcr_hi <- mul_add b (Existing div_hi) (Existing (fst hl0)) ;;
  ahl <- div_mod lb a x an ;;
  constrain_equal bcr_hi (fst ahl) ;;;
  constrain_equal (snd hl0) (snd ahl) ;;;
  range_check lb rem bn ;;;
  check_less_than lb (Existing rem) b bn ;;;
  ret (div, rem).

Lemma div_mod_var_sound a b an bn : q_det b -> (2 * bn <= CAPACITY p)%nat -> 2 ^ Z.of_nat an + 2 ^ Z.of_nat bn <= Z.pos p ->
  2 ^ Z.of_nat (S bn) <= Z.pos p -> 2 ^ Z.of_nat (S (pad_bits lb (bits (2 ^ Z.of_nat bn)))) <= Z.pos p ->
  2 ^ Z.of_nat (S (pad_bits lb (bits (2 ^ Z.of_nat an / 2 ^ Z.of_nat bn + 1)))) <= Z.pos p ->
  sound (div_mod_var lb a b an bn) (fun _ => True)
   (fun sg o => exists x y, qsem sg a x /\ qsem sg b y /\ (val y < 2 ^ Z.of_nat bn ->
      0 < val y /\ val (avs sg (fst o)) = val x / val y /\ val (avs sg (snd o)) = val x mod val y)).
Proof.
  intros Hdet H2b Hab HSb HX1 HX2. unfold div_mod_var.
  apply sound_lift_bind. intros xa _. apply sound_lift_bind. intros xb _. cbv zeta. apply sound_assert_bind. intros _.
  apply sound_lift_bind. intros xfe E. apply pow_nth_inv in E as [_ ->]; auto.
  apply sound_lift_bind. intros fdv _. apply sound_lift_bind. intros fhi _. apply sound_lift_bind. intros flo _. apply sound_lift_bind. intros frm _.
  set (X := 2 ^ Z.of_nat bn) in *. assert (PX : 0 < X) by apply pow2_pos.
  eapply sound_ext; [|eapply (sound_bind lb (dmv_region flo fhi (of_Z p X) fdv frm) (dmv_rest a b X an bn)); [apply dmv_region_sound|]].
  { intros s. unfold dmv_region, dmv_rest, bind, ret. destruct (assign_region _ _ s) as [[? s1]|]; auto. destruct (ctx_get (-5) s1) as [[? s2]|]; auto.
    destruct (ctx_get (-4) s2) as [[? s3]|]; auto. destruct (ctx_get (-2) s3) as [[? s4]|]; auto. destruct (ctx_get (-1) s4) as [[? s5]|]; auto. }
  intros [[[lo hi] dv] rm] _. unfold dmv_rest.
  eapply sound_bind; [apply range_check_sound; auto|]. intros [] _.
  eapply (sound_bind lb _ _ (fun _ => True) (fun sg _ => val (avs sg hi) * X < 2 ^ Z.of_nat an \/ val (avs sg hi) = 0)).
  { destruct (Nat.leb_spec an bn).
    - eapply sound_weaken; [apply sound_assert_is_const|auto|]. intros sg ? _ ->. right. apply val_0.
    - eapply sound_weaken; [apply range_check_sound; auto|auto|]. intros sg ? _ HR. left. cbv beta in HR.
      replace an with ((an - bn) + bn)%nat by lia. rewrite pow2_add. fold X. nia. }
  intros [] _. eapply sound_bind; [apply mul_add_sound|]. intros bcr0 _.
  eapply sound_bind; [apply (div_mod_sound (Existing bcr0) X an); auto|]. intros [h0 l0] _. cbn [fst snd].
  eapply sound_bind; [apply mul_add_sound|]. intros bh _.
  eapply sound_bind; [apply (div_mod_sound a X an); auto|]. intros [ah al] _. cbn [fst snd].
  eapply sound_bind; [apply sound_constrain_equal|]. intros [] _. eapply sound_bind; [apply sound_constrain_equal|]. intros [] _.
  eapply sound_bind; [apply range_check_sound; auto|]. intros [] _.
  eapply sound_bind; [apply (check_less_than_sound_int lb Hp Hlb Hlb2 _ _ bn HSb)|]. intros [] _. apply sound_ret; auto.
  intros sg (rx & y & Hrx & Hy & HLT) HRrm E2 E1 (x & Hx & Eah & Eal) (b2 & hi2 & h02 & Hb2 & Hhi2 & Hh02 & Ebh)
    (bc2 & Hbc & Eh0 & El0) (b3 & lo3 & rm3 & Hb3 & Hlo3 & Hrm3 & Ebc) HRhi HRlo Edv.
  cbv zeta in *. cbn [qsem fst snd] in *. subst rx bc2 hi2 h02 lo3 rm3.
  pose proof (q_det_eq _ _ _ _ Hdet Hy Hb2) as <-. pose proof (q_det_eq _ _ _ _ Hdet Hy Hb3) as <-. clear Hb2 Hb3.
  exists x, y. split; auto. split; auto. intros By. change (2 ^ Z.of_nat bn) with X in HRrm, HRlo, HLT.
  set (LO := avs sg lo) in *. set (HI := avs sg hi) in *. set (RM := avs sg rm) in *.
  pose proof (val_bounds p LO). pose proof (val_bounds p HI). pose proof (val_bounds p RM). pose proof (val_bounds p y).
  assert (HLT' : val RM < val y) by (apply HLT; lia). clear HLT. split; [lia|].
  assert (X2p : X * X <= Z.pos p). { unfold X. rewrite <- pow2_add. apply (pow2_le_p lb); auto; lia. }
  assert (V0 : val (avs sg bcr0) = val y * val LO + val RM). { rewrite Ebc. apply val_mul_add. nia. }
  assert (U : val y * val HI <= 2 ^ Z.of_nat an).
  { pose proof (pow2_pos an). destruct HRhi as [HR|HR]; [nia|rewrite HR; lia]. }
  assert (Q0 : 0 <= val (avs sg h0) < X).
  { rewrite Eh0, V0. split; [apply Z.div_pos; nia|apply Z.div_lt_upper_bound; nia]. }
  assert (V1 : val (avs sg bh) = val y * val HI + val (avs sg h0)). { rewrite Ebh. apply val_mul_add. nia. }
  rewrite E1, Eah in V1. rewrite E2, Eal in El0.
  pose proof (Z_div_mod_eq_full (val x) X) as D1. pose proof (Z_div_mod_eq_full (val (avs sg bcr0)) X) as D2.
  rewrite <- Eh0 in D2. rewrite <- El0 in D2.
  assert (EX : val x = val y * (val HI * X + val LO) + val RM).
  { rewrite D1, V1. transitivity (X * (val y * val HI) + (X * val (avs sg h0) + val x mod X)); [ring|]. rewrite <- D2, V0. ring. }
  apply div_mod_unique in EX; [|lia]. destruct EX as [EX1 EX2]. split; [|exact EX2]. rewrite <- EX1, Edv.
  rewrite <- (of_Z_val p HI) at 1. rewrite <- (of_Z_val p LO) at 1. rewrite <- of_Z_mul, <- of_Z_add. rewrite val_of_Z_small; [ring|].
  split; [nia|].
  pose proof (pow2_pos an). destruct HRhi as [HR|HR]; [|rewrite HR; nia].
  nia.
Qed.

Lemma div_mod_var_comp a b x y an bn : qh a x -> qh b y -> 0 < val y < 2 ^ Z.of_nat bn -> val x < 2 ^ Z.of_nat an ->
  (an <= CAPACITY p)%nat -> (bn <= CAPACITY p)%nat -> (pad_bits lb (bits (2 ^ Z.of_nat bn)) <= CAPACITY p)%nat ->
  (pad_bits lb (bits (2 ^ Z.of_nat an / 2 ^ Z.of_nat bn + 1)) <= CAPACITY p)%nat ->
  comp (qok2 a b) (div_mod_var lb a b an bn)
   (fun o => hv (fst o) (of_Z p (val x / val y)) /\ hv (snd o) (of_Z p (val x mod val y))) (fun rho o => av_ok rho (fst o) /\ av_ok rho (snd o)).
Proof.
  intros Ha Hb By Bx Han Hbn HX1 HX2. unfold div_mod_var.
  eapply comp_lift_bind; [eauto using qh_val|]. eapply comp_lift_bind; [eauto using qh_val|]. cbv zeta. unfold fe_to_biguint.
  apply comp_assert_bind; [apply Z.ltb_lt; lia|].
  eapply comp_lift_bind; [apply pow_nth; auto; unfold NUM_BITS; lia|].
  set (X := 2 ^ Z.of_nat bn) in *. assert (PX : 0 < X) by apply pow2_pos.
  pose proof (val_bounds p x) as Vx. pose proof (val_bounds p y) as Vy.
  set (D := val x / val y). set (R := val x mod val y).
  pose proof (Z_div_mod_eq_full (val x) (val y)) as ED. fold D R in ED.
  assert (BR : 0 <= R < val y) by (apply Z.mod_pos_bound; lia).
  assert (BD : 0 <= D) by (apply Z.div_pos; lia). assert (BD2 : D <= val x) by nia.
  pose proof (Z_div_mod_eq_full D X) as EDX. set (HI := D / X) in *. set (LO := D mod X) in *.
  assert (BLO : 0 <= LO < X) by (apply Z.mod_pos_bound; lia).
  assert (BHI : 0 <= HI) by (apply Z.div_pos; lia). assert (BHI2 : HI <= D) by nia. assert (BLO2 : LO <= D) by nia.
  assert (XP : X <= Z.pos p) by (now apply (pow2_le_p lb)).
  do 4 (eapply comp_lift_bind; [apply biguint_to_fe_some; lia|]).
  eapply comp_ext; [|eapply (comp_bind lb (dmv_region (of_Z p LO) (of_Z p HI) (of_Z p X) (of_Z p D) (of_Z p R)) (dmv_rest a b X an bn)); [apply dmv_region_comp| |]].
  { intros s. unfold dmv_region, dmv_rest, bind, ret. destruct (assign_region _ _ s) as [[? s1]|]; auto. destruct (ctx_get (-5) s1) as [[? s2]|]; auto.
    destruct (ctx_get (-4) s2) as [[? s3]|]; auto. destruct (ctx_get (-2) s3) as [[? s4]|]; auto. destruct (ctx_get (-1) s4) as [[? s5]|]; auto. }
  { rewrite <- of_Z_mul, <- of_Z_add. f_equal. lia. }
  { intros rho _. exact I. }
  intros [[[lo hi] dv] rm] (Hlo & Hhi & Hdv & Hrm). unfold dmv_rest.
  assert (WL : val (of_Z p LO) = LO) by (apply val_of_Z_small; lia). assert (WH : val (of_Z p HI) = HI) by (apply val_of_Z_small; lia).
  assert (WR : val (of_Z p R) = R) by (apply val_of_Z_small; lia). assert (WD : val (of_Z p D) = D) by (apply val_of_Z_small; lia).
  eapply comp_bind; [apply (range_check_comp lb Hp Hlb Hlb2 lo _ bn Hlo Hbn); rewrite WL; unfold X in *; lia|tauto|]. intros [] _.
  eapply (comp_bind lb _ _ _ (fun rho => av_ok rho hi) (fun _ => True) (fun _ _ => True)); [|tauto|].
  { destruct (Nat.leb_spec an bn) as [L|L].
    - assert (H0 : HI = 0). { unfold HI. apply Z.div_small. pose proof (pow2_le an bn L). unfold X. lia. } rewrite H0 in Hhi. apply (comp_assert_is_const lb hi _ Hhi).
    - apply (range_check_comp lb Hp Hlb Hlb2 hi _ (an - bn) Hhi); [lia|]. rewrite WH. unfold HI. apply Z.div_lt_upper_bound; auto.
      unfold X. rewrite <- pow2_add. replace (bn + (an - bn))%nat with an by lia. lia. }
  intros [] _.
  eapply comp_bind; [apply (mul_add_comp lb b (Existing lo) (Existing rm) y (of_Z p LO) (of_Z p R) Hb (qh_existing _ _ Hlo) (qh_existing _ _ Hrm))| |].
  { intros rho H. unfold qok2 in H. unfold qok3. cbn. tauto. }
  intros bc0 Hbc0. cbv beta in Hbc0.
  assert (E0 : (y * of_Z p LO + of_Z p R)%F = of_Z p (val y * LO + R)). { rewrite of_Z_add, of_Z_mul, of_Z_val. reflexivity. }
  rewrite E0 in Hbc0. assert (B0 : 0 <= val y * LO + R <= val x) by nia.
  assert (W0 : val (of_Z p (val y * LO + R)) = val y * LO + R) by (apply val_of_Z_small; lia).
  eapply comp_bind; [apply (div_mod_comp (Existing bc0) X _ an (qh_existing _ _ Hbc0) PX); auto; rewrite W0; lia| |].
  { intros rho H. cbn. tauto. }
  rewrite W0. intros [h0 l0] [Hh0 Hl0]. cbn [fst snd] in *.
  eapply comp_bind; [apply (mul_add_comp lb b (Existing hi) (Existing h0) _ _ _ Hb (qh_existing _ _ Hhi) (qh_existing _ _ Hh0))| |].
  { intros rho H. unfold qok2 in H. unfold qok3. cbn. tauto. }
  intros bh Hbh. cbv beta in Hbh.
  assert (DX0 : val x / X = val y * HI + (val y * LO + R) / X).
  { rewrite ED at 1. rewrite EDX. replace (val y * (X * HI + LO) + R) with ((val y * HI) * X + (val y * LO + R)) by ring. rewrite Z.div_add_l by lia. reflexivity. }
  assert (DX1 : val x mod X = (val y * LO + R) mod X).
  { rewrite ED at 1. rewrite EDX. replace (val y * (X * HI + LO) + R) with ((val y * LO + R) + (val y * HI) * X) by ring. now rewrite Z.mod_add by lia. }
  eapply comp_bind; [apply (div_mod_comp a X x an Ha PX); auto| |].
  { intros rho H. unfold qok2 in H. tauto. }
  intros [ah al] [Hah Hal]. cbn [fst snd] in *.
  assert (E1 : (y * of_Z p HI + of_Z p ((val y * LO + R) / X))%F = of_Z p (val x / X)). { rewrite DX0, of_Z_add, of_Z_mul, of_Z_val. reflexivity. }
  rewrite E1 in Hbh. rewrite DX1 in Hal.
  eapply comp_bind; [apply (comp_constrain_equal lb bh ah _ Hbh Hah)|tauto|]. intros [] _.
  eapply comp_bind; [apply (comp_constrain_equal lb l0 al _ Hl0 Hal)|tauto|]. intros [] _.
  eapply comp_bind; [apply (range_check_comp lb Hp Hlb Hlb2 rm _ bn Hrm Hbn); rewrite WR; unfold X in *; lia|tauto|]. intros [] _.
  eapply comp_bind; [apply (check_less_than_comp lb Hp Hlb Hlb2 (Existing rm) b _ _ bn (qh_existing _ _ Hrm) Hb Hbn); rewrite WR; unfold X in *; lia| |].
  { intros rho H. unfold qok2 in *. cbn. tauto. }
  intros [] _. apply comp_ret; cbn [fst snd]; auto. tauto.
Qed.
End RangeProofs3.
