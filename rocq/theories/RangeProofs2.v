(** Soundness and completeness of comparisons in the range chip. *)
From Coq Require Import ZArith Znumtheory Lia List Bool Ring.
From Verif Require Import Field Spec Context ContextProofs Utils Logic Gate GateProofs ChainProofs IPProofs BitProofs PowProofs Range RangeProofs RegionGets.
Import ListNotations.
Local Open Scope Z_scope.
Local Open Scope monad_scope.

Section RangeProofs2.
Context {p : positive} (lb : nat).
Context (Hp : prime (Z.pos p)).
Notation Fp := (F p).
Notation sound := (sound (p:=p) lb).
Notation comp := (comp (p:=p) lb).
Add Ring Fring : (F_ring p) (morphism (F_morph p), constants [Fcst]).
Context (Hlb : (1 <= lb < 64)%nat) (Hlb2 : (2 * lb <= CAPACITY p)%nat).

Lemma sound_assoc {A B C} (m : M p A) (f : A -> M p B) (g : B -> M p C) P Q :
  sound (bind (bind m f) g) P Q -> sound (bind m (fun a => bind (f a) g)) P Q.
Proof. apply sound_ext. intros s. unfold bind. destruct (m s) as [[a s1]|]; auto. Qed.
Lemma comp_assoc {A B C} H (m : M p A) (f : A -> M p B) (g : B -> M p C) P Q :
  comp H (bind (bind m f) g) P Q -> comp H (bind m (fun a => bind (f a) g)) P Q.
Proof. apply comp_ext. intros s. unfold bind. destruct (m s) as [[a s1]|]; auto. Qed.

(** the shift-and-subtract region shared by [check_less_than] and [is_less_than] *)
Definition shift_region (a b : qcell p) (pow x y : Fp) : M p (AV p) :=
  bind (assign_region [Witness ((pow + x) - y)%F; b; Constant F1; Witness (pow + x)%F; Constant (- pow)%F; Constant F1; a] [0; 3])
    (fun _ => ctx_get (- Z.of_nat 7)).
Lemma shift_region_sound a b pow x0 y0 : sound (shift_region a b pow x0 y0) (fun _ => True)
  (fun sg o => exists x y, qsem sg a x /\ qsem sg b y /\ avs sg o = (pow + x - y)%F).
Proof.
  unfold shift_region. eapply sound_weaken; [ apply (@sound_region_get p lb); first [nonneg_offs | cbn; lia] | exact (fun _ H => H) | ].
  intros sg o _ (v & [Hq Hg] & Ho); cbn [length Nat.sub] in Ho.
  cellv Hq 1%nat. cellv Hq 2%nat. cellv Hq 4%nat. cellv Hq 5%nat. cellv Hq 6%nat. gatev Hg 0%nat. gatev Hg 3%nat.
  exists (v 6%nat), (v 1%nat). repeat split; auto. rewrite Ho. rewrite C0 in G. rewrite C1, C2 in G0.
  rewrite <- G0, <- G. ring.
Qed.
Lemma shift_region_comp a b pow x y : qh a x -> qh b y ->
  comp (qok2 a b) (shift_region a b pow x y) (fun o => hv o (pow + x - y)%F) (fun rho o => av_ok rho o).
Proof. intros Ha Hb. unfold shift_region, qok2. eapply comp_weaken.
  - eapply (@comp_region_get p lb _ _ 7).
    + cell_oks.
    + offs_in.
    + cbn; lia.
    + reflexivity.
    + gates.
  - intros rho [H1 H2]. repeat (apply Forall_cons || apply Forall_nil); cbn [q_ok]; auto.
  - hvout.
  - auto.
Qed.

(** integer content of the shifted difference *)
Lemma shifted_val n (x y : Fp) : val y <= 2 ^ Z.of_nat n + val x -> 2 ^ Z.of_nat n + val x - val y < Z.pos p ->
  val (of_Z p (2 ^ Z.of_nat n) + x - y)%F = 2 ^ Z.of_nat n + val x - val y.
Proof.
  intros H1 H2. rewrite <- (of_Z_val p x) at 1. rewrite <- (of_Z_val p y) at 1. rewrite <- of_Z_add, <- of_Z_sub.
  apply val_of_Z_small. lia.
Qed.

(** exact meaning of the [check_less_than] constraints *)
Lemma check_less_than_sound a b n : sound (check_less_than lb a b n) (fun _ => True)
  (fun sg _ => exists x y, qsem sg a x /\ qsem sg b y /\ val (of_Z p (2 ^ Z.of_nat n) + x - y)%F < 2 ^ Z.of_nat n).
Proof.
  unfold check_less_than. apply sound_lift_bind. intros pw Epw. apply pow_nth_inv in Epw as [_ ->]; auto.
  apply sound_lift_bind. intros x0 _. apply sound_lift_bind. intros y0 _. cbv zeta.
  apply sound_assoc. eapply sound_bind; [apply shift_region_sound|]. intros o _.
  eapply sound_weaken; [apply range_check_sound; auto|auto|]. cbv beta.
  intros sg u _ H (x & y & Hx & Hy & Ho). exists x, y. rewrite <- Ho. auto.
Qed.
Lemma check_less_than_comp a b x y n : qh a x -> qh b y -> (n <= CAPACITY p)%nat -> val x < val y <= 2 ^ Z.of_nat n + val x ->
  comp (qok2 a b) (check_less_than lb a b n) (fun _ => True) (fun _ _ => True).
Proof.
  intros Ha Hb Hn Hv. unfold check_less_than. eapply comp_lift_bind; [apply pow_nth; auto; unfold NUM_BITS; lia|].
  eapply comp_lift_bind; [eauto using qh_val|]. eapply comp_lift_bind; [eauto using qh_val|]. cbv zeta.
  apply comp_assoc. eapply comp_bind; [apply (shift_region_comp a b _ x y Ha Hb)|auto|].
  intros o Ho. pose proof (pow2_le_p _ Hlb Hlb2 n Hn). pose proof (val_bounds p x). pose proof (val_bounds p y).
  eapply comp_weaken; [apply (range_check_comp lb Hp Hlb Hlb2 o _ n Ho Hn)|intros rho H3; exact (proj2 H3)|auto|auto].
  rewrite shifted_val; lia.
Qed.

Lemma lt_of_shift n (x y : Fp) : val y <= 2 ^ Z.of_nat n + val x -> 2 ^ Z.of_nat n + val x - val y < Z.pos p ->
  val (of_Z p (2 ^ Z.of_nat n) + x - y)%F < 2 ^ Z.of_nat n -> val x < val y.
Proof. intros H1 H2 H3. rewrite shifted_val in H3 by lia. lia.
Qed.
(** under the documented precondition, and provided [2^(n+1) <= p] *)
Lemma check_less_than_sound_int a b n : 2 ^ Z.of_nat (S n) <= Z.pos p -> sound (check_less_than lb a b n) (fun _ => True)
  (fun sg _ => exists x y, qsem sg a x /\ qsem sg b y /\ (val x < 2 ^ Z.of_nat n -> val y <= 2 ^ Z.of_nat n -> val x < val y)).
Proof.
  intros HN. eapply sound_weaken; [apply check_less_than_sound|auto|]. intros sg u _ (x & y & Hx & Hy & H).
  exists x, y. split; auto. split; auto. intros H1 H2. rewrite Nat2Z.inj_succ, Z.pow_succ_r in HN by lia.
  pose proof (val_bounds p x). pose proof (val_bounds p y). apply (lt_of_shift n); lia.
Qed.

Lemma pad_ge n : (n <= pad_bits lb n)%nat.
Proof. unfold pad_bits. apply ceil_ge. lia. Qed.
Lemma bits_bound z : 0 <= z -> z < 2 ^ Z.of_nat (bits z).
Proof.
  intros H. unfold bits. destruct (Z.leb_spec z 0); [assert (z = 0) by lia; subst; cbn; lia|].
  pose proof (Z.log2_nonneg z). rewrite Nat2Z.inj_succ, Z2Nat.id by auto. apply Z.log2_spec. lia.
Qed.
Lemma bits_min z n : z < 2 ^ Z.of_nat n -> (bits z <= n)%nat.
Proof.
  intros H. unfold bits. destruct (Z.leb_spec z 0); [lia|]. pose proof (Z.log2_nonneg z).
  apply Z.log2_lt_pow2 in H; auto. lia.
Qed.
Lemma bit_length_bits z : 0 <= z < 2 ^ 64 -> bit_length z = bits z.
Proof.
  intros H. destruct (bit_length_spec z H) as [HB1 HB2]. pose proof (HB2 _ (bits_bound z ltac:(lia))).
  pose proof (bits_min z _ HB1). lia.
Qed.

(** ** safe variants *)
Lemma rc_then_lt_sound (a : AV p) (b : Fp) n : 2 ^ Z.of_nat (S n) <= Z.pos p -> val b <= 2 ^ Z.of_nat n ->
  sound (range_check lb a n ;;; check_less_than lb (Existing a) (Constant b) n) (fun _ => True)
   (fun sg _ => val (avs sg a) < val b).
Proof.
  intros HN Hb. eapply sound_bind; [apply range_check_sound; auto|]. intros [] _.
  eapply sound_weaken; [apply (check_less_than_sound_int _ _ n HN)|auto|].
  intros sg u _ (x & y & Hx & Hy & H) HR. cbn in Hx, Hy. subst. auto.
Qed.
Lemma rc_then_lt_comp (a : AV p) (b : Fp) x n : hv a x -> (n <= CAPACITY p)%nat -> val b <= 2 ^ Z.of_nat n -> val x < val b ->
  comp (fun rho => av_ok rho a) (range_check lb a n ;;; check_less_than lb (Existing a) (Constant b) n) (fun _ => True) (fun _ _ => True).
Proof.
  intros Ha Hn Hb Hx. pose proof (val_bounds p x).
  eapply comp_bind; [apply (range_check_comp lb Hp Hlb Hlb2 a x n Ha Hn); lia|auto|].
  intros [] _. eapply comp_weaken; [apply (check_less_than_comp (Existing a) (Constant b) x b n (qh_existing _ _ Ha) (qh_const b) Hn); lia| |auto|auto].
  intros rho [Ho _]. split; cbn; auto.
Qed.
Lemma ltb_lb : Nat.ltb 0 lb = true.
Proof. apply Nat.ltb_lt. lia. Qed.
Lemma bits_pad z : 0 <= z -> z <= 2 ^ Z.of_nat (pad_bits lb (bits z)).
Proof. intros H. pose proof (bits_bound z H). pose proof (pow2_le _ _ (pad_ge (bits z))). lia. Qed.
Lemma S_pow_le_p n : (S n <= CAPACITY p)%nat -> 2 ^ Z.of_nat (S n) <= Z.pos p.
Proof. intros. apply (pow2_le_p lb); auto. Qed.

Lemma check_less_than_safe_sound a b : 0 <= b < 2 ^ 64 -> b < Z.pos p -> 2 ^ Z.of_nat (S (pad_bits lb (bits b))) <= Z.pos p ->
  sound (check_less_than_safe lb a b) (fun _ => True) (fun sg _ => val (avs sg a) < b).
Proof.
  intros Hb Hbp Hn. unfold check_less_than_safe. apply sound_assert_bind. intros _. rewrite bit_length_bits by auto. cbv zeta.
  eapply sound_weaken; [apply rc_then_lt_sound; auto|auto|]; rewrite ?val_of_Z_small by lia; auto. apply bits_pad; lia.
Qed.
Lemma check_less_than_safe_comp a b x : hv a x -> 0 <= b < 2 ^ 64 -> b < Z.pos p -> (pad_bits lb (bits b) <= CAPACITY p)%nat -> val x < b ->
  comp (fun rho => av_ok rho a) (check_less_than_safe lb a b) (fun _ => True) (fun _ _ => True).
Proof.
  intros Ha Hb Hbp Hn Hx. unfold check_less_than_safe. apply comp_assert_bind; [apply ltb_lb|]. rewrite bit_length_bits by auto.
  apply (rc_then_lt_comp a _ x); auto; rewrite val_of_Z_small by lia; auto. apply bits_pad; lia.
Qed.
Lemma check_big_less_than_safe_sound a b : 0 <= b -> 2 ^ Z.of_nat (S (pad_bits lb (bits b))) <= Z.pos p ->
  sound (check_big_less_than_safe lb a b) (fun _ => True) (fun sg _ => val (avs sg a) < b).
Proof.
  intros Hb Hn. unfold check_big_less_than_safe. apply sound_assert_bind. intros _. cbv zeta.
  eapply sound_ext; [|apply (sound_lift_bind lb (biguint_to_fe b) (fun fb => range_check lb a (pad_bits lb (bits b)) ;;; check_less_than lb (Existing a) (Constant fb) (pad_bits lb (bits b))))].
  - intros s. unfold bind, lift. destruct (biguint_to_fe b); [destruct (range_check _ _ _ _) as [[? ?]|]; auto|].
    destruct (range_check _ _ _ _) as [[? ?]|]; auto.
  - intros fb E. apply biguint_to_fe_val in E. rewrite <- E. apply rc_then_lt_sound; rewrite ?E; auto. now apply bits_pad.
Qed.
Lemma pad_lt_p b : 0 <= b -> (pad_bits lb (bits b) <= CAPACITY p)%nat -> b < Z.pos p.
Proof.
  intros Hb Hn. pose proof (bits_bound b Hb). pose proof (pow2_le _ _ (pad_ge (bits b))). pose proof (pow2_le_p lb Hlb Hlb2 _ Hn). lia.
Qed.
Lemma check_big_less_than_safe_comp a b x : hv a x -> 0 <= b -> (pad_bits lb (bits b) <= CAPACITY p)%nat -> val x < b ->
  comp (fun rho => av_ok rho a) (check_big_less_than_safe lb a b) (fun _ => True) (fun _ _ => True).
Proof.
  intros Ha Hb Hn Hx. unfold check_big_less_than_safe. apply comp_assert_bind; [apply ltb_lb|].
  pose proof (pad_lt_p b Hb Hn).
  assert (E : biguint_to_fe (p:=p) b = Some (of_Z p b)) by (apply biguint_to_fe_some; lia).
  eapply comp_ext; [|apply (rc_then_lt_comp a (of_Z p b) x (pad_bits lb (bits b)))]; auto; rewrite ?val_of_Z_small by lia; auto; [|now apply bits_pad].
  intros s. unfold bind, lift. rewrite E. reflexivity.
Qed.

(** ** is_less_than *)
Lemma pad_shape n : exists k, pad_bits lb n = (k * lb)%nat.
Proof. exists (ceil_div n lb). reflexivity. Qed.
Lemma is_less_than_sound a b n : sound (is_less_than lb a b n) (fun _ => True)
  (fun sg o => exists x y, qsem sg a x /\ qsem sg b y /\
     (val x < 2 ^ Z.of_nat (pad_bits lb n) -> val y <= 2 ^ Z.of_nat (pad_bits lb n) -> avs sg o = fbool (val x <? val y))).
Proof.
  unfold is_less_than. apply sound_assert_bind. intros _. cbv zeta. apply sound_assert_bind. intros HC. apply Nat.leb_le in HC.
  destruct (pad_shape n) as [k Ek]. set (m := pad_bits lb n) in *.
  apply sound_lift_bind. intros pw Epw. apply pow_nth_inv in Epw as [_ ->]; auto.
  apply sound_lift_bind. intros x0 _. apply sound_lift_bind. intros y0 _.
  apply sound_assoc. eapply sound_bind; [apply shift_region_sound|]. intros o _.
  eapply sound_bind; [apply _range_check_sound; auto|]. intros l _.
  eapply sound_weaken; [apply is_zero_sound; auto|auto|]. cbv beta.
  intros sg u _ Hz (H1 & H2) (x & y & Hx & Hy & Ho). exists x, y. split; auto. split; auto. intros Bx By.
  rewrite Hz. f_equal. specialize (H2 ltac:(lia)).
  assert (EC : (lb * (ceil_div (m + lb) lb - 1))%nat = m).
  { unfold ceil_div. replace ((m + lb + lb - 1) / lb)%nat with (S k); [nia|]. apply (Nat.div_unique _ lb (S k) (lb - 1)); nia. }
  rewrite EC, Ho in H2. pose proof (val_bounds p x). pose proof (val_bounds p y).
  pose proof (pow2_le_p lb Hlb Hlb2 (S m) ltac:(lia)) as HP. rewrite Nat2Z.inj_succ, Z.pow_succ_r in HP by lia.
  assert (NW : 2 ^ Z.of_nat m + val x - val y < Z.pos p) by lia.
  rewrite (shifted_val m x y) in H2 by lia.
  destruct (Z.ltb_spec (val x) (val y)) as [L|L].
  - apply Fis0_true. apply F_eq. rewrite H2, val_0. apply Z.div_small. lia.
  - apply Fis0_false. intros E. rewrite E, val_0 in H2.
    assert (1 <= (2 ^ Z.of_nat m + val x - val y) / 2 ^ Z.of_nat m) by (apply Z.div_le_lower_bound; [apply pow2_pos|lia]). lia.
Qed.
Lemma is_less_than_comp a b x y n : qh a x -> qh b y -> (pad_bits lb n + lb <= CAPACITY p)%nat ->
  val x < 2 ^ Z.of_nat (pad_bits lb n) -> val y <= 2 ^ Z.of_nat (pad_bits lb n) ->
  comp (qok2 a b) (is_less_than lb a b n) (fun o => hv o (fbool (val x <? val y))) (fun rho o => av_ok rho o).
Proof.
  intros Ha Hb HC Bx By. unfold is_less_than. apply comp_assert_bind; [apply ltb_lb|]. cbv zeta. apply comp_assert_bind; [now apply Nat.leb_le|].
  destruct (pad_shape n) as [k Ek]. set (m := pad_bits lb n) in *.
  eapply comp_lift_bind; [apply pow_nth; auto; unfold NUM_BITS; lia|].
  eapply comp_lift_bind; [eauto using qh_val|]. eapply comp_lift_bind; [eauto using qh_val|].
  apply comp_assoc. eapply comp_bind; [apply (shift_region_comp a b _ x y Ha Hb)|auto|].
  intros o Ho. cbv beta in Ho. pose proof (val_bounds p x). pose proof (val_bounds p y).
  pose proof (pow2_le_p lb Hlb Hlb2 (S m) ltac:(lia)) as HP. rewrite Nat2Z.inj_succ, Z.pow_succ_r in HP by lia.
  assert (NW : 2 ^ Z.of_nat m + val x - val y < Z.pos p) by lia.
  pose proof (shifted_val m x y ltac:(lia) NW) as EV.
  assert (EC : (lb * (ceil_div (m + lb) lb - 1))%nat = m).
  { unfold ceil_div. replace ((m + lb + lb - 1) / lb)%nat with (S k); [nia|]. apply (Nat.div_unique _ lb (S k) (lb - 1)); nia. }
  eapply comp_bind; [apply (_range_check_comp lb Hp Hlb Hlb2 o _ (m + lb) Ho HC)|intros rho H3; exact (proj2 H3)|].
  { rewrite EV. eapply Z.lt_le_trans; [|apply (pow2_le (S m)); lia]. rewrite Nat2Z.inj_succ, Z.pow_succ_r by lia. lia. }
  intros l Hl. cbv beta in Hl. specialize (Hl ltac:(lia)). rewrite EC, EV in Hl.
  eapply comp_weaken; [apply (is_zero_comp lb Hp l _ Hl)|intros rho H3; exact (proj2 H3)| |auto].
  intros z Hz. replace (val x <? val y) with (Fis0 (of_Z p ((2 ^ Z.of_nat m + val x - val y) / 2 ^ Z.of_nat m))); [exact Hz|].
  set (q := 2 ^ Z.of_nat m + val x - val y) in *. pose proof (pow2_pos m).
  assert (0 <= q / 2 ^ Z.of_nat m < Z.pos p).
  { split; [apply Z.div_pos; lia|]. apply Z.div_lt_upper_bound; [lia|]. nia. }
  destruct (Z.ltb_spec (val x) (val y)) as [L|L].
  - apply Fis0_true. apply F_eq. rewrite val_of_Z_small, val_0 by auto. apply Z.div_small. lia.
  - apply Fis0_false. intros E. apply (f_equal val) in E. rewrite val_of_Z_small, val_0 in E by auto.
    assert (1 <= q / 2 ^ Z.of_nat m) by (apply Z.div_le_lower_bound; lia). lia.
Qed.

Lemma pad_pad n : pad_bits lb (pad_bits lb n) = pad_bits lb n.
Proof.
  unfold pad_bits. set (k := ceil_div n lb). f_equal. unfold ceil_div. symmetry. apply (Nat.div_unique _ lb k (lb - 1)); nia.
Qed.
Lemma rc_is_lt_sound (a : AV p) (b : Fp) n : pad_bits lb n = n -> val b <= 2 ^ Z.of_nat n ->
  sound (range_check lb a n ;;; is_less_than lb (Existing a) (Constant b) n) (fun _ => True)
   (fun sg o => val (avs sg a) < 2 ^ Z.of_nat n /\ avs sg o = fbool (val (avs sg a) <? val b)).
Proof.
  intros HN Hb. eapply sound_bind; [apply range_check_sound; auto|]. intros [] _.
  eapply sound_weaken; [apply (is_less_than_sound _ _ n)|auto|].
  intros sg u _ (x & y & Hx & Hy & H) HR. cbn in Hx, Hy. subst. rewrite HN in H. auto.
Qed.
Lemma rc_is_lt_comp (a : AV p) (b : Fp) x n : hv a x -> pad_bits lb n = n -> (n + lb <= CAPACITY p)%nat -> val b <= 2 ^ Z.of_nat n ->
  val x < 2 ^ Z.of_nat n ->
  comp (fun rho => av_ok rho a) (range_check lb a n ;;; is_less_than lb (Existing a) (Constant b) n)
    (fun o => hv o (fbool (val x <? val b))) (fun rho o => av_ok rho o).
Proof.
  intros Ha HN Hn Hb Hx.
  eapply comp_bind; [apply (range_check_comp lb Hp Hlb Hlb2 a x n Ha ltac:(lia)); lia|auto|].
  intros [] _. eapply comp_weaken; [apply (is_less_than_comp (Existing a) (Constant b) x b n (qh_existing _ _ Ha) (qh_const b)); rewrite HN; lia| |auto|auto].
  intros rho [Ho _]. split; cbn; auto.
Qed.
Lemma is_less_than_safe_sound a b : 0 <= b < 2 ^ 64 -> b < Z.pos p ->
  sound (is_less_than_safe lb a b) (fun _ => True)
   (fun sg o => val (avs sg a) < 2 ^ Z.of_nat (pad_bits lb (bits b)) /\ avs sg o = fbool (val (avs sg a) <? b)).
Proof.
  intros Hb Hbp. unfold is_less_than_safe. apply sound_assert_bind. intros _. rewrite bit_length_bits by auto. cbv zeta.
  pose proof (bits_pad b ltac:(lia)).
  eapply sound_weaken; [apply (rc_is_lt_sound a (of_Z p b) _ (pad_pad _))|auto|]; rewrite ?val_of_Z_small by lia; auto.
Qed.
Lemma is_less_than_safe_comp a b x : hv a x -> 0 <= b < 2 ^ 64 -> (pad_bits lb (bits b) + lb <= CAPACITY p)%nat ->
  val x < 2 ^ Z.of_nat (pad_bits lb (bits b)) ->
  comp (fun rho => av_ok rho a) (is_less_than_safe lb a b) (fun o => hv o (fbool (val x <? b))) (fun rho o => av_ok rho o).
Proof.
  intros Ha Hb Hn Hx. unfold is_less_than_safe. apply comp_assert_bind; [apply ltb_lb|]. rewrite bit_length_bits by auto.
  pose proof (pad_lt_p b ltac:(lia) ltac:(lia)). pose proof (bits_pad b ltac:(lia)).
  cbv zeta. eapply comp_weaken; [apply (rc_is_lt_comp a (of_Z p b) x (pad_bits lb (bits b)) Ha (pad_pad _) Hn)|auto| |auto];
    rewrite ?val_of_Z_small by lia; auto.
Qed.
Lemma is_big_less_than_safe_sound a b : 0 <= b ->
  sound (is_big_less_than_safe lb a b) (fun _ => True)
   (fun sg o => val (avs sg a) < 2 ^ Z.of_nat (pad_bits lb (bits b)) /\ avs sg o = fbool (val (avs sg a) <? b)).
Proof.
  intros Hb. unfold is_big_less_than_safe. apply sound_assert_bind. intros _. cbv zeta.
  eapply sound_ext; [|apply (sound_lift_bind lb (biguint_to_fe b) (fun fb => range_check lb a (pad_bits lb (bits b)) ;;; is_less_than lb (Existing a) (Constant fb) (pad_bits lb (bits b))))].
  - intros s. unfold bind, lift. destruct (biguint_to_fe b); [destruct (range_check _ _ _ _) as [[? ?]|]; auto|].
    destruct (range_check _ _ _ _) as [[? ?]|]; auto.
  - intros fb E. apply biguint_to_fe_val in E. pose proof (bits_pad b Hb). eapply sound_weaken; [apply (rc_is_lt_sound a fb _ (pad_pad _)); now rewrite E|auto|].
    rewrite E. auto.
Qed.
Lemma is_big_less_than_safe_comp a b x : hv a x -> 0 <= b -> (pad_bits lb (bits b) + lb <= CAPACITY p)%nat ->
  val x < 2 ^ Z.of_nat (pad_bits lb (bits b)) ->
  comp (fun rho => av_ok rho a) (is_big_less_than_safe lb a b) (fun o => hv o (fbool (val x <? b))) (fun rho o => av_ok rho o).
Proof.
  intros Ha Hb Hn Hx. unfold is_big_less_than_safe. apply comp_assert_bind; [apply ltb_lb|].
  pose proof (pad_lt_p b ltac:(lia) ltac:(lia)). pose proof (bits_pad b ltac:(lia)).
  assert (E : biguint_to_fe (p:=p) b = Some (of_Z p b)) by (apply biguint_to_fe_some; lia).
  cbv zeta. eapply comp_weaken; [eapply comp_ext; [|apply (rc_is_lt_comp a (of_Z p b) x (pad_bits lb (bits b)) Ha (pad_pad _) Hn)]|auto| |auto];
    rewrite ?val_of_Z_small by lia; auto.
  intros s. unfold bind, lift. rewrite E. reflexivity.
Qed.
End RangeProofs2.
