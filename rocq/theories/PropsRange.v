(** Property theorems C10-C17 about [RangeChip]. Reading guide: see PropsGate.v. Throughout, [lb] is lookup_bits; the standing configuration
    assumptions are [1 <= lb < 64] and [2*lb <= CAPACITY] (RangeConfig::configure asserts lookup_bits <= F::S, i.e. 28 on BN254 whose CAPACITY is 253). *)
From Coq Require Import ZArith Znumtheory Lia List Bool.
From Verif Require Import Field Spec Context ContextProofs Utils Logic Gate GateProofs ChainProofs IPProofs BitProofs PowProofs SatCheck
  Range RangeProofs RegionGets RangeProofs2 RangeProofs3.
Import ListNotations.
Local Open Scope Z_scope.
Local Open Scope monad_scope.


Section Range.
Context (p : positive) (lb : nat) (Hp : prime (Z.pos p)) (Hlb : (1 <= lb < 64)%nat) (Hlb2 : (2 * lb <= CAPACITY p)%nat).
Notation T := (fun _ => True).
Notation U := (fun _ _ => True).

(** ** C10 *)
Theorem C10_range_check_sound : forall (a : AV p) (n : nat),
  sound lb (range_check lb a n) T (fun sg _ => 0 <= val (avs sg a) < 2 ^ Z.of_nat n).
Proof. intros a n. eapply sound_weaken; [now apply range_check_sound|auto|]. intros sg ? _ H. cbv beta in H. pose proof (val_bounds p (avs sg a)). lia. Qed.
Theorem C10_range_check_complete : forall (a : AV p) (x : F p) (n : nat), hv a x -> (n <= CAPACITY p)%nat -> val x < 2 ^ Z.of_nat n ->
  comp lb (fun rho => av_ok rho a) (range_check lb a n) T U.
Proof. intros a x n H1 H2 H3. now apply (range_check_comp lb Hp Hlb Hlb2 a x n). Qed.

(** ** C11 *)
Theorem C11_check_less_than_sound : forall (a b : qcell p) (n : nat), 2 ^ Z.of_nat (n + 1) <= Z.pos p ->
  sound lb (check_less_than lb a b n) T
    (fun sg _ => exists x y, qsem sg a x /\ qsem sg b y /\ (val x < 2 ^ Z.of_nat n -> val y < 2 ^ Z.of_nat n -> val x < val y)).
Proof.
  intros a b n H. eapply sound_weaken; [apply (check_less_than_sound_int lb Hp Hlb Hlb2 a b n); now rewrite <- Nat.add_1_r|auto|].
  intros sg ? _ (x & y & Hx & Hy & HL). exists x, y. split; auto. split; auto. intros; apply HL; lia.
Qed.
Theorem C11_check_less_than_complete : forall (a b : qcell p) (x y : F p) (n : nat), qh a x -> qh b y -> (n <= CAPACITY p)%nat ->
  val y <= 2 ^ Z.of_nat n -> val x < val y ->
  comp lb (fun rho => q_ok rho a /\ q_ok rho b) (check_less_than lb a b n) T U.
Proof.
  intros a b x y n Ha Hb Hn By Hxy. apply (check_less_than_comp lb Hp Hlb Hlb2 a b x y n Ha Hb Hn). pose proof (val_bounds p x). lia.
Qed.
(** bits b = number of bits of b; pad_bits lb n = n rounded up to a multiple of lb *)
Theorem C11_check_less_than_safe_sound : forall (a : AV p) (b : Z),
  (0 <= b < 2 ^ 64 -> b < Z.pos p -> 2 ^ Z.of_nat (pad_bits lb (bits b) + 1) <= Z.pos p ->
   sound lb (check_less_than_safe lb a b) T (fun sg _ => val (avs sg a) < b)) /\
  (0 <= b -> 2 ^ Z.of_nat (pad_bits lb (bits b) + 1) <= Z.pos p ->
   sound lb (check_big_less_than_safe lb a b) T (fun sg _ => val (avs sg a) < b)).
Proof.
  intros a b. rewrite Nat.add_1_r. split; intros.
  - now apply check_less_than_safe_sound.
  - now apply check_big_less_than_safe_sound.
Qed.
Theorem C11_check_less_than_safe_complete : forall (a : AV p) (b : Z) (x : F p), hv a x -> (pad_bits lb (bits b) <= CAPACITY p)%nat -> val x < b ->
  (0 <= b < 2 ^ 64 -> b < Z.pos p -> comp lb (fun rho => av_ok rho a) (check_less_than_safe lb a b) T U) /\
  (0 <= b -> comp lb (fun rho => av_ok rho a) (check_big_less_than_safe lb a b) T U).
Proof.
  intros a b x Ha Hn Hx. split; intros.
  - now apply (check_less_than_safe_comp lb Hp Hlb Hlb2 a b x).
  - now apply (check_big_less_than_safe_comp lb Hp Hlb Hlb2 a b x).
Qed.

(** ** C12 *)
Theorem C12_is_less_than_sound : forall (a b : qcell p) (n : nat),
  sound lb (is_less_than lb a b n) T
    (fun sg o => exists x y, qsem sg a x /\ qsem sg b y /\
       (val x < 2 ^ Z.of_nat n -> val y < 2 ^ Z.of_nat n -> avs sg o = if val x <? val y then F1 else F0)).
Proof.
  intros a b n. eapply sound_weaken; [now apply is_less_than_sound|auto|]. intros sg o _ (x & y & Hx & Hy & HL).
  exists x, y. split; auto. split; auto. intros B1 B2. pose proof (pow2_le _ _ (pad_ge lb Hlb Hlb2 n)). rewrite HL by lia. now destruct (val x <? val y).
Qed.
Theorem C12_is_less_than_complete : forall (a b : qcell p) (x y : F p) (n : nat), qh a x -> qh b y -> (pad_bits lb n + lb <= CAPACITY p)%nat ->
  val x < 2 ^ Z.of_nat n -> val y < 2 ^ Z.of_nat n ->
  comp lb (fun rho => q_ok rho a /\ q_ok rho b) (is_less_than lb a b n) (fun o => hv o (if val x <? val y then F1 else F0)) (fun rho o => av_ok rho o).
Proof.
  intros a b x y n Ha Hb Hn Hx Hy. pose proof (pow2_le _ _ (pad_ge lb Hlb Hlb2 n)).
  eapply comp_weaken; [apply (is_less_than_comp lb Hp Hlb Hlb2 a b x y n); auto; lia|auto| |auto]. intros o Ho. now destruct (val x <? val y).
Qed.
Theorem C12_is_less_than_safe_sound : forall (a : AV p) (b : Z), 0 <= b ->
  let Q := fun sg (o : AV p) => val (avs sg a) < 2 ^ Z.of_nat (pad_bits lb (bits b)) /\ avs sg o = if val (avs sg a) <? b then F1 else F0 in
  (b < 2 ^ 64 -> b < Z.pos p -> sound lb (is_less_than_safe lb a b) T Q) /\
  sound lb (is_big_less_than_safe lb a b) T Q.
Proof.
  intros a b Hb Q. split; [intros H1 H2|].
  - eapply sound_weaken; [apply (is_less_than_safe_sound lb Hp Hlb Hlb2 a b); auto|auto|]. intros sg o _ [K1 K2]. split; [exact K1|]. rewrite K2. now destruct (_ <? _).
  - eapply sound_weaken; [apply (is_big_less_than_safe_sound lb Hp Hlb Hlb2 a b); auto|auto|]. intros sg o _ [K1 K2]. split; [exact K1|]. rewrite K2. now destruct (_ <? _).
Qed.
Theorem C12_is_less_than_safe_complete : forall (a : AV p) (b : Z) (x : F p), hv a x -> 0 <= b -> (pad_bits lb (bits b) + lb <= CAPACITY p)%nat ->
  val x < 2 ^ Z.of_nat (pad_bits lb (bits b)) ->
  let P := fun o : AV p => hv o (if val x <? b then F1 else F0) in
  (b < 2 ^ 64 -> comp lb (fun rho => av_ok rho a) (is_less_than_safe lb a b) P (fun rho o => av_ok rho o)) /\
  comp lb (fun rho => av_ok rho a) (is_big_less_than_safe lb a b) P (fun rho o => av_ok rho o).
Proof.
  intros a b x Ha Hb Hn Hx P. split; [intros H1|].
  - eapply comp_weaken; [apply (is_less_than_safe_comp lb Hp Hlb Hlb2 a b x); auto|auto| |auto]. unfold P. intros o Ho. now destruct (_ <? _).
  - eapply comp_weaken; [apply (is_big_less_than_safe_comp lb Hp Hlb Hlb2 a b x); auto|auto| |auto]. unfold P. intros o Ho. now destruct (_ <? _).
Qed.

(** ** C13 *)
Theorem C13_div_mod_sound : forall (a : qcell p) (b : Z) (n : nat), 0 < b -> 2 ^ Z.of_nat n + b <= Z.pos p ->
  2 ^ Z.of_nat (pad_bits lb (bits b) + 1) <= Z.pos p -> 2 ^ Z.of_nat (pad_bits lb (bits (2 ^ Z.of_nat n / b + 1)) + 1) <= Z.pos p ->
  sound lb (div_mod lb a b n) T
    (fun sg o => exists x, qsem sg a x /\ val (avs sg (fst o)) = val x / b /\ val (avs sg (snd o)) = val x mod b).
Proof. intros a b n. rewrite !Nat.add_1_r. intros. now apply div_mod_sound. Qed.
Theorem C13_div_mod_complete : forall (a : qcell p) (b : Z) (x : F p) (n : nat), qh a x -> 0 < b -> val x < 2 ^ Z.of_nat n ->
  (pad_bits lb (bits b) <= CAPACITY p)%nat -> (pad_bits lb (bits (2 ^ Z.of_nat n / b + 1)) <= CAPACITY p)%nat ->
  comp lb (fun rho => q_ok rho a) (div_mod lb a b n)
    (fun o => hv (fst o) (of_Z p (val x / b)) /\ hv (snd o) (of_Z p (val x mod b))) (fun rho o => av_ok rho (fst o) /\ av_ok rho (snd o)).
Proof. intros. now apply div_mod_comp. Qed.

(** ** C14: [b] an existing cell or a constant *)
Theorem C14_div_mod_var_sound : forall (a b : qcell p) (an bn : nat),
  (match b with Existing _ | Constant _ => True | _ => False end) ->
  (2 * bn <= CAPACITY p)%nat -> 2 ^ Z.of_nat an + 2 ^ Z.of_nat bn <= Z.pos p ->
  2 ^ Z.of_nat (bn + 1) <= Z.pos p -> 2 ^ Z.of_nat (pad_bits lb (bits (2 ^ Z.of_nat bn)) + 1) <= Z.pos p ->
  2 ^ Z.of_nat (pad_bits lb (bits (2 ^ Z.of_nat an / 2 ^ Z.of_nat bn + 1)) + 1) <= Z.pos p ->
  sound lb (div_mod_var lb a b an bn) T
   (fun sg o => exists x y, qsem sg a x /\ qsem sg b y /\ (val y < 2 ^ Z.of_nat bn ->
      val y <> 0 /\ val (avs sg (fst o)) = val x / val y /\ val (avs sg (snd o)) = val x mod val y)).
Proof.
  intros a b an bn Hb H1 H2 H3 H4 H5. rewrite Nat.add_1_r in *.
  eapply sound_weaken; [apply (div_mod_var_sound lb Hp Hlb Hlb2 a b an bn); auto|auto|].
  intros sg o _ (x & y & Hx & Hy & HL). exists x, y. split; auto. split; auto. intros B. destruct (HL B) as (L1 & L2). split; [lia|auto].
Qed.
Theorem C14_div_mod_var_complete : forall (a b : qcell p) (x y : F p) (an bn : nat), qh a x -> qh b y ->
  0 < val y < 2 ^ Z.of_nat bn -> val x < 2 ^ Z.of_nat an ->
  (an <= CAPACITY p)%nat -> (bn <= CAPACITY p)%nat -> (pad_bits lb (bits (2 ^ Z.of_nat bn)) <= CAPACITY p)%nat ->
  (pad_bits lb (bits (2 ^ Z.of_nat an / 2 ^ Z.of_nat bn + 1)) <= CAPACITY p)%nat ->
  comp lb (fun rho => q_ok rho a /\ q_ok rho b) (div_mod_var lb a b an bn)
   (fun o => hv (fst o) (of_Z p (val x / val y)) /\ hv (snd o) (of_Z p (val x mod val y))) (fun rho o => av_ok rho (fst o) /\ av_ok rho (snd o)).
Proof. intros a b x y an bn. intros. now apply (div_mod_var_comp lb Hp Hlb Hlb2 a b x y an bn). Qed.

(** ** C15 *)
Theorem C15_get_last_bit_sound : forall (a : AV p) (n : nat), 2 ^ Z.of_nat n <= Z.pos p ->
  sound lb (get_last_bit lb a n) T (fun sg o => val (avs sg a) < 2 ^ Z.of_nat n /\ val (avs sg o) = val (avs sg a) mod 2).
Proof. intros. now apply get_last_bit_sound. Qed.
Theorem C15_get_last_bit_complete : forall (a : AV p) (x : F p) (n : nat), hv a x -> (1 <= n <= CAPACITY p)%nat -> val x < 2 ^ Z.of_nat n ->
  comp lb (fun rho => av_ok rho a) (get_last_bit lb a n) (fun o => hv o (of_Z p (val x mod 2))) (fun rho o => av_ok rho o).
Proof. intros. apply get_last_bit_comp; auto. unfold NUM_BITS. lia. Qed.

(** ** C16 *)
Theorem C16_decompose_le_sound : forall (num : AV p) (limb_bits k : nat), (1 <= k)%nat -> (limb_bits * k <= CAPACITY p)%nat ->
  sound lb (decompose_le lb num limb_bits k) (fun ls => length ls = k)
    (fun sg ls => val (avs sg num) < 2 ^ Z.of_nat (limb_bits * k) /\
       map (fun l => val (avs sg l)) ls = map (fun i => val (avs sg num) / 2 ^ Z.of_nat (limb_bits * i) mod 2 ^ Z.of_nat limb_bits) (seq 0 k)).
Proof.
  intros num b k Hk HC. eapply sound_weaken; [now apply (decompose_le_sound lb Hp Hlb Hlb2 num b k)|auto|]. intros sg ls HL [H1 H2]. split; auto.
  rewrite H2. apply nth_ext with (d := 0) (d' := val (avs sg num) / 2 ^ Z.of_nat (b * 0) mod 2 ^ Z.of_nat b).
  - now rewrite digits_length, map_length, seq_length.
  - intros i Hi. rewrite digits_length in Hi. rewrite digits_nth by auto.
    rewrite (map_nth (fun i => val (avs sg num) / 2 ^ Z.of_nat (b * i) mod 2 ^ Z.of_nat b)), seq_nth by auto. reflexivity.
Qed.
Theorem C16_decompose_le_complete : forall (num : AV p) (x : F p) (limb_bits k : nat), hv num x -> (1 <= k)%nat ->
  (1 <= limb_bits < 128)%nat -> limb_bits <> 64%nat -> (limb_bits * k <= CAPACITY p)%nat -> val x < 2 ^ Z.of_nat (limb_bits * k) ->
  comp lb (fun rho => av_ok rho num) (decompose_le lb num limb_bits k)
    (fun ls => Forall2 hv ls (map (of_Z p) (digits limb_bits k (val x)))) (fun rho ls => Forall (av_ok rho) ls).
Proof. intros. apply decompose_le_comp; auto; unfold NUM_BITS; nia. Qed.
Theorem C16_limbs_to_num_sound : forall (limbs : list (AV p)) (limb_bits : nat), (1 <= limb_bits)%nat -> (limb_bits * (length limbs - 1) <= CAPACITY p)%nat ->
  sound lb (limbs_to_num limbs limb_bits) T
    (fun sg o => avs sg o = of_Z p (undigits limb_bits (map (fun l => val (avs sg l)) limbs))).
Proof. intros. apply limbs_to_num_sound; auto. unfold NUM_BITS. lia. Qed.
Theorem C16_limbs_to_num_complete : forall (limbs : list (AV p)) (vs : list (F p)) (limb_bits : nat), Forall2 hv limbs vs ->
  (1 <= limb_bits)%nat -> (limb_bits * (length limbs - 1) <= CAPACITY p)%nat ->
  comp lb (fun rho => Forall (av_ok rho) limbs) (limbs_to_num limbs limb_bits) (fun o => hv o (of_Z p (undigits limb_bits (map val vs)))) (fun rho o => av_ok rho o).
Proof. intros. apply limbs_to_num_comp; auto. unfold NUM_BITS. lia. Qed.

(** ** C17: rotation described bit by bit *)
Lemma rot_testbit a k n : (k < n)%nat -> 0 <= a < 2 ^ Z.of_nat n -> forall i, 0 <= i < Z.of_nat n ->
  Z.testbit (a mod 2 ^ Z.of_nat k * 2 ^ Z.of_nat (n - k) + a / 2 ^ Z.of_nat k) i = Z.testbit a ((i + Z.of_nat k) mod Z.of_nat n).
Proof.
  intros Hk Ha i Hi. set (hi := a / 2 ^ Z.of_nat k). set (lo := a mod 2 ^ Z.of_nat k).
  assert (Bh : 0 <= hi < 2 ^ Z.of_nat (n - k)).
  { split; [apply Z.div_pos; [lia|apply pow2_pos]|]. apply Z.div_lt_upper_bound; [apply pow2_pos|]. rewrite <- pow2_add. replace (k + (n - k))%nat with n by lia. lia. }
  destruct (Z_lt_ge_dec i (Z.of_nat (n - k))) as [L|L].
  - rewrite <- (Z.mod_pow2_bits_low _ (Z.of_nat (n - k))) by lia.
    replace (lo * 2 ^ Z.of_nat (n - k) + hi) with (hi + lo * 2 ^ Z.of_nat (n - k)) by ring.
    rewrite Z.mod_add by (pose proof (pow2_pos (n - k)); lia). rewrite Z.mod_small by lia.
    unfold hi. rewrite Z.div_pow2_bits by lia. rewrite Z.mod_small by lia. reflexivity.
  - replace i with ((i - Z.of_nat (n - k)) + Z.of_nat (n - k)) at 1 by lia. rewrite <- Z.div_pow2_bits by lia.
    rewrite Z.div_add_l by (pose proof (pow2_pos (n - k)); lia). rewrite (Z.div_small hi) by lia. rewrite Z.add_0_r.
    unfold lo. rewrite Z.mod_pow2_bits_low by lia. f_equal.
    replace (i + Z.of_nat k) with ((i - Z.of_nat (n - k)) + 1 * Z.of_nat n) by lia. rewrite Z.mod_add by lia. rewrite Z.mod_small; lia.
Qed.
Theorem C17_rotate_sound : forall (a : AV p) (BIT N : nat),
  sound lb (const_right_rotate lb BIT N a) T
    (fun sg o => val (avs sg a) < 2 ^ Z.of_nat N -> 0 <= val (avs sg o) < 2 ^ Z.of_nat N /\
       forall i, 0 <= i < Z.of_nat N -> Z.testbit (val (avs sg o)) i = Z.testbit (val (avs sg a)) ((i + Z.of_nat BIT) mod Z.of_nat N)) /\
  sound lb (const_left_rotate lb BIT N a) T
    (fun sg o => val (avs sg a) < 2 ^ Z.of_nat N -> 0 <= val (avs sg o) < 2 ^ Z.of_nat N /\
       forall i, 0 <= i < Z.of_nat N -> Z.testbit (val (avs sg o)) i = Z.testbit (val (avs sg a)) ((i - Z.of_nat BIT) mod Z.of_nat N)).
Proof.
  intros a BIT N. unfold const_right_rotate, const_left_rotate. split; apply sound_assert_bind; intros HN; apply Nat.ltb_lt in HN; cbv zeta.
  - pose proof (Nat.mod_upper_bound BIT N ltac:(lia)) as Hm. pose proof (Nat.div_mod BIT N ltac:(lia)) as Hd. set (k := (BIT mod N)%nat) in *. set (q := (BIT / N)%nat) in *.
    destruct (Nat.eqb_spec k 0) as [K0|K0].
    + apply sound_ret; auto. intros sg HB. pose proof (val_bounds p (avs sg a)). split; [lia|]. intros i Hi. f_equal.
      replace (i + Z.of_nat BIT) with (i + Z.of_nat q * Z.of_nat N) by nia. rewrite Z.mod_add by lia. rewrite Z.mod_small; lia.
    + eapply sound_weaken; [now apply (rotate_internal_sound lb Hp Hlb Hlb2 a k N)|auto|]. intros sg o _ (H1 & H2 & H3) _.
      pose proof (val_bounds p (avs sg a)). pose proof (val_bounds p (avs sg o)). split; [lia|]. intros i Hi. rewrite H2, rot_testbit by lia. f_equal.
      replace (i + Z.of_nat BIT) with (i + Z.of_nat k + Z.of_nat q * Z.of_nat N) by nia. now rewrite Z.mod_add by lia.
  - pose proof (Nat.mod_upper_bound BIT N ltac:(lia)) as Hm. pose proof (Nat.div_mod BIT N ltac:(lia)) as Hd. set (k := (BIT mod N)%nat) in *. set (q := (BIT / N)%nat) in *.
    destruct (Nat.eqb_spec k 0) as [K0|K0].
    + apply sound_ret; auto. intros sg HB. pose proof (val_bounds p (avs sg a)). split; [lia|]. intros i Hi. f_equal.
      replace (i - Z.of_nat BIT) with (i + (- Z.of_nat q) * Z.of_nat N) by nia. rewrite Z.mod_add by lia. rewrite Z.mod_small; lia.
    + eapply sound_weaken; [now apply (rotate_internal_sound lb Hp Hlb Hlb2 a (N - k) N)|auto|]. intros sg o _ (H1 & H2 & H3) _.
      pose proof (val_bounds p (avs sg a)). pose proof (val_bounds p (avs sg o)). split; [lia|]. intros i Hi. rewrite H2, rot_testbit by lia. f_equal.
      replace (i - Z.of_nat BIT) with (i + Z.of_nat (N - k) + (- Z.of_nat q - 1) * Z.of_nat N) by nia. now rewrite Z.mod_add by lia.
Qed.
End Range.
Print Assumptions C10_range_check_sound.
Print Assumptions C10_range_check_complete.
Print Assumptions C11_check_less_than_sound.
Print Assumptions C11_check_less_than_complete.
Print Assumptions C11_check_less_than_safe_sound.
Print Assumptions C11_check_less_than_safe_complete.
Print Assumptions C12_is_less_than_sound.
Print Assumptions C12_is_less_than_complete.
Print Assumptions C12_is_less_than_safe_sound.
Print Assumptions C12_is_less_than_safe_complete.
Print Assumptions C13_div_mod_sound.
Print Assumptions C13_div_mod_complete.
Print Assumptions C14_div_mod_var_sound.
Print Assumptions C14_div_mod_var_complete.
Print Assumptions C15_get_last_bit_sound.
Print Assumptions C15_get_last_bit_complete.
Print Assumptions C16_decompose_le_sound.
Print Assumptions C16_decompose_le_complete.
Print Assumptions C16_limbs_to_num_sound.
Print Assumptions C16_limbs_to_num_complete.
Print Assumptions C17_rotate_sound.

(** ** concrete runs over the real BN254 scalar field: lookup_bits = 8, CAPACITY = 253 *)
Notation R := bn254_r.
Definition fz (z : Z) : F R := of_Z R z.
Definition W (z : Z) : qcell R := Witness (fz z).
Definition K (z : Z) : qcell R := Constant (fz z).
Example range_config_ok : (1 <= 8 < 64)%nat /\ (2 * 8 <= CAPACITY R)%nat /\ CAPACITY R = 253%nat.
Proof. assert (E : CAPACITY R = 253%nat) by (vm_compute; reflexivity). rewrite E. lia. Qed.
Definition ex_range : M R (list (AV R)) :=
  a <- load_witness (fz 1000) ;; range_check 8 a 10 ;;; range_check 8 a 17 ;;; check_less_than 8 (Existing a) (W 1001) 12 ;;;
  check_less_than_safe 8 a 1001 ;;; check_big_less_than_safe 8 a (2 ^ 100 + 7) ;;;
  l1 <- is_less_than 8 (Existing a) (W 999) 12 ;; l2 <- is_less_than_safe 8 a 2000 ;; l3 <- is_big_less_than_safe 8 a 1000 ;;
  qr <- div_mod 8 (Existing a) 7 10 ;; b <- load_witness (fz 13) ;; vr <- div_mod_var 8 (Existing a) (Existing b) 10 4 ;;
  g <- get_last_bit 8 a 10 ;; ls <- decompose_le 8 a 5 2 ;; n <- limbs_to_num ls 5 ;;
  ret ([l1; l2; l3; fst qr; snd qr; fst vr; snd vr; g; n] ++ ls).
Example C10_to_C16_example : run_ok 8 ex_range (fun l => forallb (fun e => avz (fst e) =? snd e)
  (combine l [0; 1; 0; 142; 6; 76; 12; 0; 1000; 8; 31])) = true.
Proof. vm_compute. reflexivity. Qed.
(** a dishonest value is rejected: 1024 does not pass the 10-bit range check *)
Example C10_reject_example : run_ok 8 (a <- load_witness (fz 1024) ;; range_check 8 a 10) (fun _ => true) = false.
Proof. vm_compute. reflexivity. Qed.

(** ** C11 at the documented limit: num_bits = CAPACITY = 253 is unsound. a = 2^253 - 1 >= b = 1 satisfies everything *)
Theorem C11_capacity_bits_refuted :
  exists (o : AV R * AV R) (s' : st R) (sg : cell -> F R),
    (a <- load_witness (fz (2 ^ 253 - 1)) ;; b <- load_witness (fz 1) ;; check_less_than 8 (Existing a) (Existing b) 253 ;;; ret (a, b))
      (new_ctx false 0 0 0) = Some (o, s') /\ Sat 8 sg s' /\
    val (avs sg (fst o)) = 2 ^ 253 - 1 /\ val (avs sg (snd o)) = 1 /\ (253 <= CAPACITY R)%nat.
Proof.
  set (m := a <- load_witness (fz (2 ^ 253 - 1)) ;; b <- load_witness (fz 1) ;; check_less_than 8 (Existing a) (Existing b) 253 ;;; ret (a, b)).
  assert (H : attack2_ok 8 m m (fun sg o => (val (avs sg (fst o)) =? 2 ^ 253 - 1) && (val (avs sg (snd o)) =? 1) && Nat.leb 253 (CAPACITY R)) = true) by (vm_compute; reflexivity).
  apply attack2_ok_spec in H as (o & s' & sg & H1 & H2 & H3). rewrite !andb_true_iff, !Z.eqb_eq, Nat.leb_le in H3. destruct H3 as [[H3 H4] H5].
  exists o, s', sg. auto 10.
Qed.
Print Assumptions C11_capacity_bits_refuted.
(** the safe variant within its documented assumption ceil(bits(b)/lookup_bits)*lookup_bits <= CAPACITY, lookup_bits = 11:
    a = 2^253 - 1 passes "a < 2^242" *)
Theorem C11_safe_capacity_refuted :
  exists (o : AV R) (s' : st R) (sg : cell -> F R),
    (a <- load_witness (fz (2 ^ 253 - 1)) ;; check_big_less_than_safe 11 a (2 ^ 242) ;;; ret a)
      (new_ctx false 0 0 0) = Some (o, s') /\ Sat 11 sg s' /\
    val (avs sg o) = 2 ^ 253 - 1 /\ (pad_bits 11 (bits (2 ^ 242)) <= CAPACITY R)%nat.
Proof.
  set (m := a <- load_witness (fz (2 ^ 253 - 1)) ;; check_big_less_than_safe 11 a (2 ^ 242) ;;; ret a).
  assert (H : attack2_ok 11 m m (fun sg o => (val (avs sg o) =? 2 ^ 253 - 1) && Nat.leb (pad_bits 11 (bits (2 ^ 242))) (CAPACITY R)) = true) by (vm_compute; reflexivity).
  apply attack2_ok_spec in H as (o & s' & sg & H1 & H2 & H3). rewrite !andb_true_iff, !Z.eqb_eq, Nat.leb_le in H3. destruct H3 as [H3 H4].
  exists o, s', sg. auto 10.
Qed.
Print Assumptions C11_safe_capacity_refuted.

(** ** C13 at the documented limit: a = 0, b = 2^253 - 1, a_num_bits = 253 = CAPACITY, lookup_bits = 11: quotient 1 is accepted *)
Definition evil_div_mod (lb : nat) (a : qcell R) (b : Z) (a_num_bits : nat) (dv rm : Z) : M R (AV R * AV R) :=
  assign_region [Witness (fz rm); Constant (fz b); Witness (fz dv); a] [0] ;;;
  rem <- ctx_get (-4) ;; div <- ctx_get (-2) ;;
  check_big_less_than_safe lb div (2 ^ Z.of_nat a_num_bits / b + 1) ;;; check_big_less_than_safe lb rem b ;;; ret (div, rem).
Theorem C13_documented_limit_refuted :
  exists (o : AV R * (AV R * AV R)) (s' : st R) (sg : cell -> F R),
    (a <- load_witness (fz 0) ;; r <- div_mod 11 (Existing a) (2 ^ 253 - 1) 253 ;; ret (a, r)) (new_ctx false 0 0 0) = Some (o, s') /\ Sat 11 sg s' /\
    val (avs sg (fst o)) = 0 /\ val (avs sg (fst (snd o))) = 1 /\ (253 <= CAPACITY R)%nat.
Proof.
  set (m := a <- load_witness (fz 0) ;; r <- div_mod 11 (Existing a) (2 ^ 253 - 1) 253 ;; ret (a, r)).
  set (e := a <- load_witness (fz 0) ;; evil_div_mod 11 (Existing a) (2 ^ 253 - 1) 253 1 (Z.pos R - (2 ^ 253 - 1))).
  assert (H : attack2_ok 11 m e (fun sg o => (val (avs sg (fst o)) =? 0) && (val (avs sg (fst (snd o))) =? 1) && Nat.leb 253 (CAPACITY R)) = true) by (vm_compute; reflexivity).
  apply attack2_ok_spec in H as (o & s' & sg & H1 & H2 & H3). rewrite !andb_true_iff, !Z.eqb_eq, Nat.leb_le in H3. destruct H3 as [[H3 H4] H5].
  exists o, s', sg. auto 10.
Qed.
Print Assumptions C13_documented_limit_refuted.

(** ** C14 within the documented assumptions: 1 / 5 with a_num_bits = b_num_bits = 252, lookup_bits = 11: a huge quotient is accepted *)
Definition evil_div_mod_var (lb : nat) (a b : qcell R) (an bn : nat) (lo hi dv rm : Z) : M R (AV R * AV R) :=
  let x := 2 ^ Z.of_nat bn in
  assign_region [Witness (fz lo); Witness (fz hi); Constant (fz x); Witness (fz dv); Witness (fz rm)] [0] ;;;
  div_lo <- ctx_get (-5) ;; div_hi <- ctx_get (-4) ;; div <- ctx_get (-2) ;; rem <- ctx_get (-1) ;;
  dmv_rest lb a b x an bn (div_lo, div_hi, div, rem).
Definition evil_rem : Z := (1 + Z.pos R) mod 5.
Definition evil_quo : Z := (1 + Z.pos R) / 5.
Theorem C14_documented_limit_refuted :
  exists (o : AV R * AV R * (AV R * AV R)) (s' : st R) (sg : cell -> F R),
    (a <- load_witness (fz 1) ;; b <- load_witness (fz 5) ;; r <- div_mod_var 11 (Existing a) (Existing b) 252 252 ;; ret (a, b, r)) (new_ctx false 0 0 0) = Some (o, s') /\
    Sat 11 sg s' /\ val (avs sg (fst (fst o))) = 1 /\ val (avs sg (snd (fst o))) = 5 /\ val (avs sg (fst (snd o))) = evil_quo /\ 0 < evil_quo /\ (252 <= CAPACITY R)%nat.
Proof.
  set (m := a <- load_witness (fz 1) ;; b <- load_witness (fz 5) ;; r <- div_mod_var 11 (Existing a) (Existing b) 252 252 ;; ret (a, b, r)).
  set (e := a <- load_witness (fz 1) ;; b <- load_witness (fz 5) ;; evil_div_mod_var 11 (Existing a) (Existing b) 252 252 evil_quo 0 evil_quo evil_rem).
  assert (H : attack2_ok 11 m e (fun sg o => (val (avs sg (fst (fst o))) =? 1) && (val (avs sg (snd (fst o))) =? 5) && (val (avs sg (fst (snd o))) =? evil_quo) && (0 <? evil_quo) && Nat.leb 252 (CAPACITY R)) = true) by (vm_compute; reflexivity).
  apply attack2_ok_spec in H as (o & s' & sg & H1 & H2 & H3). rewrite !andb_true_iff, !Z.eqb_eq, Z.ltb_lt, Nat.leb_le in H3. destruct H3 as [[[[H3 H4] H5] H6] H7].
  exists o, s', sg. auto 10.
Qed.
Print Assumptions C14_documented_limit_refuted.

(** ** C17: the honest witness of a rotation violates the circuit's own constraints (1 rotated right by 1 in 10 bits) *)
Theorem C17_honest_witness_refuted :
  exists (o : AV R) (s' : st R),
    (a <- load_witness (fz 1) ;; const_right_rotate 8 1 10 a) (new_ctx false 0 0 0) = Some (o, s') /\
    forall rho, Agree rho s' -> ~ Sat 8 rho s'.
Proof.
  set (m := a <- load_witness (fz 1) ;; const_right_rotate 8 1 10 a).
  assert (H : match run m with Some (o, s) => bad_eq s | None => false end = true) by (vm_compute; reflexivity).
  unfold run in H. destruct (m (new_ctx false 0 0 0)) as [[o s']|]; [|discriminate]. exists o, s'. split; auto. now apply bad_eq_spec.
Qed.
Print Assumptions C17_honest_witness_refuted.
(** the soundness theorem is not vacuous: another witness (l = 0, r = 1, result 512) satisfies the same constraints *)
Definition good_rotate (a : AV R) (bit n : nat) (vl vr : Z) : M R (AV R) :=
  l <- load_witness (fz vl) ;; r <- load_witness (fz vr) ;;
  vw <- mul_add (Existing l) (K (2 ^ Z.of_nat bit)) (Existing r) ;;
  range_check 8 l (n - bit) ;;; range_check 8 r bit ;;; constrain_equal a vw ;;;
  mul_add (Existing r) (K (2 ^ Z.of_nat (n - bit))) (Existing l).
Example C17_example : attack2_ok 8 (a <- load_witness (fz 1) ;; const_right_rotate 8 1 10 a) (a <- load_witness (fz 1) ;; good_rotate a 1 10 0 1)
  (fun sg o => val (avs sg o) =? 512) = true.
Proof. vm_compute. reflexivity. Qed.
