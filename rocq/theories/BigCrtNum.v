(** Arithmetic of the CRT checks: bounds on quotients, remainders and carries. *)
From Coq Require Import ZArith Znumtheory Lia List Bool.
From Verif Require Import Field Spec Context Utils Gate Range RangeProofs RangeProofs2 BigNum BigInt BigOps BigCarry.
Import ListNotations.
Local Open Scope Z_scope.

Lemma carry_range_bits_bounds lb cb n : (1 <= lb)%nat -> (n <= cb)%nat -> (cb + 1 <= carry_range_bits lb cb n + n <= cb + lb)%nat.
Proof.
  intros H1 H2. unfold carry_range_bits. set (x := (cb - n + 1)%nat).
  pose proof (Nat.div_mod (x + lb) lb ltac:(lia)) as D. pose proof (Nat.mod_upper_bound (x + lb) lb ltac:(lia)).
  set (q := ((x + lb) / lb)%nat) in *. replace (q * lb)%nat with (lb * q)%nat by lia. unfold x in *. lia.
Qed.
Lemma bits_low z : 0 < z -> 2 ^ (Z.of_nat (bits z) - 1) <= z /\ (1 <= bits z)%nat.
Proof.
  intros H. unfold bits. destruct (Z.leb_spec z 0); [lia|]. pose proof (Z.log2_nonneg z). pose proof (Z.log2_spec z H).
  split; [|lia]. replace (Z.of_nat (S (Z.to_nat (Z.log2 z))) - 1) with (Z.log2 z) by lia. lia.
Qed.

Lemma bits_up z : 0 <= z -> z < 2 ^ Z.of_nat (bits z).
Proof.
  intros H. unfold bits. destruct (Z.leb_spec z 0); [assert (z = 0) by lia; subst; cbn; lia|].
  pose proof (Z.log2_nonneg z). rewrite Nat2Z.inj_succ, Z2Nat.id by auto. apply Z.log2_spec. lia.
Qed.

Lemma bits_le z n : z < 2 ^ Z.of_nat n -> (bits z <= n)%nat.
Proof.
  intros H. unfold bits. destruct (Z.leb_spec z 0); [lia|]. pose proof (Z.log2_nonneg z).
  apply Z.log2_lt_pow2 in H; auto. lia.
Qed.

(** splitting off the top digit *)
Lemma split_last {A} (l : list A) k : length l = k -> (1 <= k)%nat -> exists l0 x, l = l0 ++ [x] /\ length l0 = (k - 1)%nat /\ nth_error l (k - 1) = Some x.
Proof.
  intros HL Hk. destruct (exists_last (l := l)) as (l0 & x & ->). { destruct l; cbn in *; [lia|discriminate]. }
  rewrite app_length in HL. cbn in HL. exists l0, x. split; auto. split; [lia|]. rewrite nth_error_app2 by lia. replace (k - 1 - length l0)%nat with O by lia. reflexivity.
Qed.
Lemma undigits_top n l x : undigits n (l ++ [x]) = undigits n l + 2 ^ Z.of_nat (n * length l) * x.
Proof. rewrite U_app. cbn [undigits]. lia. Qed.

(** choosing integers for cells *)
Lemma choose_list {A} {p : positive} (e : A -> F p) (Q : nat -> Z -> Prop) l :
  (forall i a, nth_error l i = Some a -> exists z, e a = of_Z p z /\ Q i z) ->
  exists zs, map e l = map (of_Z p) zs /\ length zs = length l /\ forall i z, nth_error zs i = Some z -> Q i z.
Proof.
  revert Q. induction l as [|a l IH]; intros Q H.
  - exists []. split; auto. split; auto. intros [|i] z Hz; discriminate.
  - destruct (H O a eq_refl) as (z & E & HQ). destruct (IH (fun i => Q (S i))) as (zs & E2 & L2 & Q2).
    { intros i b Hb. exact (H (S i) b Hb). }
    exists (z :: zs). cbn. rewrite E, E2, L2. split; auto. split; auto. intros [|i] y Hy; cbn in Hy; [injection Hy as <-; auto|auto].
Qed.

(** [decompose_bigint] *)
Definition sdigits (n k : nat) (z : Z) : list Z := if z <? 0 then map Z.opp (digits n k (- z)) else digits n k z.
Lemma decompose_bigint_sdigits (p : positive) z k n : (64 <= n < 128)%nat -> (1 <= k)%nat ->
  decompose_bigint (p:=p) z k n = Some (map (of_Z p) (sdigits n k z)).
Proof.
  intros Hn Hk. unfold decompose_bigint, decompose_biguint, sdigits. rewrite decompose_biguint_limbs_correct by lia. cbn [option_map].
  destruct (Z.ltb_spec z 0).
  - rewrite !map_map. f_equal. replace (Z.abs z) with (- z) by lia. apply map_ext. intros. symmetry. apply of_Z_opp.
  - now rewrite Z.abs_eq by lia.
Qed.
Lemma sdigits_length n k z : length (sdigits n k z) = k.
Proof. unfold sdigits. destruct (z <? 0); rewrite ?map_length; apply digits_length. Qed.
Lemma sdigits_bound n k z : Forall (fun d => Z.abs d < 2 ^ Z.of_nat n) (sdigits n k z).
Proof.
  unfold sdigits. destruct (z <? 0).
  - apply Forall_map. eapply Forall_impl; [|apply digits_bound]. cbv beta. intros; lia.
  - eapply Forall_impl; [|apply digits_bound]. cbv beta. intros; lia.
Qed.
Lemma sdigits_undigits n k z : Z.abs z < 2 ^ Z.of_nat (n * k) -> undigits n (sdigits n k z) = z.
Proof.
  intros H. unfold sdigits. destruct (Z.ltb_spec z 0).
  - rewrite U_opp, undigits_digits, Z.mod_small; lia.
  - rewrite undigits_digits, Z.mod_small; lia.
Qed.
Lemma digits_top n k z l : (1 <= k)%nat -> 0 <= z < 2 ^ Z.of_nat (n * k) -> nth_error (digits n k z) (k - 1) = Some l -> l = z / 2 ^ Z.of_nat (n * (k - 1)).
Proof.
  intros Hk Hz H. apply nth_error_nth with (d := 0) in H. rewrite digits_nth in H by lia. subst l. apply Z.mod_small.
  pose proof (pow2_pos (n * (k - 1))). split; [apply Z.div_pos; lia|]. apply Z.div_lt_upper_bound; auto.
  rewrite <- pow2_add. replace (n * (k - 1) + n)%nat with (n * k)%nat by nia. lia.
Qed.
Lemma sdigits_top n k ql z l : (1 <= k)%nat -> Z.abs z < 2 ^ Z.of_nat (n * k) -> - 2 ^ Z.of_nat (n * (k - 1) + ql) <= z < 2 ^ Z.of_nat (n * (k - 1) + ql) ->
  nth_error (sdigits n k z) (k - 1) = Some l -> - 2 ^ Z.of_nat ql <= l < 2 ^ Z.of_nat ql.
Proof.
  intros Hk Hz HB H. rewrite pow2_add in HB. pose proof (pow2_pos (n * (k - 1))) as HW. set (W := 2 ^ Z.of_nat (n * (k - 1))) in *.
  pose proof (pow2_pos ql). unfold sdigits in H. destruct (Z.ltb_spec z 0).
  - rewrite nth_error_map in H. destruct (nth_error (digits n k (- z)) (k - 1)) as [d|] eqn:E; [|discriminate]. injection H as <-.
    apply digits_top in E; [|lia|lia]. fold W in E. subst d.
    assert (0 <= - z / W) by (apply Z.div_pos; lia). assert (- z / W <= 2 ^ Z.of_nat ql). { apply Z.div_le_upper_bound; lia. } lia.
  - apply digits_top in H; [|lia|lia]. fold W in H. subst l. assert (0 <= z / W) by (apply Z.div_pos; lia).
    assert (z / W < 2 ^ Z.of_nat ql). { apply Z.div_lt_upper_bound; lia. } lia.
Qed.

(** bound on the quotient spelled by range-checked limbs *)
Lemma quot_bound n k ql qs : (2 <= n)%nat -> (1 <= k)%nat -> length qs = k ->
  (forall i z, nth_error qs i = Some z -> let b := if Nat.eqb i (k - 1) then ql else n in - 2 ^ Z.of_nat b <= z < 2 ^ Z.of_nat b) ->
  3 * Z.abs (undigits n qs) <= (3 * 2 ^ Z.of_nat ql + 4) * 2 ^ Z.of_nat (n * (k - 1)).
Proof.
  intros Hn Hk HL HQ. destruct (split_last qs k HL Hk) as (q0 & z & -> & L0 & Hz).
  pose proof (HQ _ _ Hz) as Bz. rewrite Nat.eqb_refl in Bz. cbv zeta in Bz.
  assert (F0 : Forall (fun x => Z.abs x <= 2 ^ Z.of_nat n) q0).
  { apply Forall_forall. intros x Hx. apply In_nth_error in Hx as [i Hi].
    assert (i < length q0)%nat by (apply nth_error_Some; congruence).
    specialize (HQ i x). rewrite nth_error_app1 in HQ by auto. specialize (HQ Hi). destruct (Nat.eqb_spec i (k - 1)); [lia|]. cbv zeta in HQ. lia. }
  pose proof (pow2_pos n) as HB. assert (4 <= 2 ^ Z.of_nat n) by (pose proof (pow2_le 2 n Hn) as H; exact H).
  pose proof (U_abs_bound n (2 ^ Z.of_nat n) q0 F0 ltac:(lia)) as HU. rewrite undigits_top, L0 in *.
  pose proof (pow2_pos (n * (k - 1))) as HW. set (W := 2 ^ Z.of_nat (n * (k - 1))) in *. set (B := 2 ^ Z.of_nat n) in *. set (u := undigits n q0) in *.
  set (t := 2 ^ Z.of_nat ql) in *.
  assert (3 * Z.abs u <= 4 * W) by nia.
  assert (Z.abs (W * z) <= W * t) by (rewrite Z.abs_mul; nia). lia.
Qed.
(** bound on the remainder spelled by range-checked limbs *)
Lemma out_bound n k ol os : (1 <= k)%nat -> length os = k -> (ol <= n)%nat ->
  (forall i z, nth_error os i = Some z -> 0 <= z < 2 ^ Z.of_nat (if Nat.eqb i (k - 1) then ol else n)) ->
  0 <= undigits n os < 2 ^ Z.of_nat (n * (k - 1) + ol) /\ Forall (fun z => 0 <= z < 2 ^ Z.of_nat n) os.
Proof.
  intros Hk HL Hol HQ.
  assert (HF : Forall (fun z => 0 <= z < 2 ^ Z.of_nat n) os).
  { apply Forall_forall. intros x Hx. apply In_nth_error in Hx as [i Hi]. specialize (HQ i x Hi). pose proof (pow2_le _ _ Hol).
    destruct (Nat.eqb i (k - 1)); lia. }
  split; auto. destruct (split_last os k HL Hk) as (q0 & z & -> & L0 & Hz).
  pose proof (HQ _ _ Hz) as Bz. rewrite Nat.eqb_refl in Bz. apply Forall_app in HF as [HF _]. pose proof (undigits_bound n q0 HF) as HU.
  rewrite undigits_top, L0 in *. rewrite pow2_add. pose proof (pow2_pos (n * (k - 1))). nia.
Qed.

(** the CRT argument *)
Lemma crt_core (p : positive) n k qmb m O Q x : prime (Z.pos p) -> 2 < Z.pos p -> (2 <= n)%nat -> (2 <= k)%nat -> 0 < m ->
  (n * (k - 1) + 2 <= qmb)%nat -> (qmb + bits m + 2 = n * k + NUM_BITS p)%nat ->
  0 <= O < 2 ^ Z.of_nat (bits m) -> 3 * Z.abs Q <= (3 * 2 ^ Z.of_nat (qmb - n * (k - 1)) + 4) * 2 ^ Z.of_nat (n * (k - 1)) ->
  8 * Z.abs x < 2 ^ Z.of_nat (n * k + NUM_BITS p) ->
  (2 ^ Z.of_nat (n * k) | O + m * Q - x) -> (Z.pos p | O + m * Q - x) -> O + m * Q = x.
Proof.
  intros Hp H2 Hn Hk Hm Hq1 Hq2 HO HQ Hx D1 D2.
  enough (O + m * Q - x = 0) by lia. apply (crt_zero p (n * k)); auto.
  pose proof (CAPACITY_bound p) as [HP _]. unfold NUM_BITS in *. set (c := CAPACITY p) in *.
  pose proof (bits_up m ltac:(lia)) as Hb. set (b := bits m) in *.
  set (ql := (qmb - n * (k - 1))%nat) in *. set (w := (n * (k - 1))%nat) in *.
  assert (E : 2 ^ Z.of_nat (n * k + S c) = 4 * (2 ^ Z.of_nat b * (2 ^ Z.of_nat w * 2 ^ Z.of_nat ql))).
  { rewrite <- !pow2_add. change 4 with (2 ^ Z.of_nat 2). rewrite <- pow2_add. f_equal. lia. }
  assert (E2 : 2 ^ Z.of_nat (n * k + S c) = 2 * (2 ^ Z.of_nat (n * k) * 2 ^ Z.of_nat c)).
  { rewrite <- pow2_add, <- pow2_S. f_equal. lia. }
  pose proof (pow2_pos (n * k)) as Hnk.
  assert (E3 : 2 ^ Z.of_nat (n * k + S c) <= 2 * (2 ^ Z.of_nat (n * k) * Z.pos p)) by nia.
  pose proof (pow2_le 2 ql ltac:(lia)) as Hql. change (2 ^ Z.of_nat 2) with 4 in Hql.
  assert (Hw : 4 <= 2 ^ Z.of_nat w). { change 4 with (2 ^ Z.of_nat 2). apply pow2_le. unfold w. nia. }
  pose proof (pow2_pos b) as Hbp. set (TB := 2 ^ Z.of_nat b) in *. set (TW := 2 ^ Z.of_nat w) in *. set (TQ := 2 ^ Z.of_nat ql) in *. set (X := 2 ^ Z.of_nat (n * k + S c)) in *.
  assert (M1 : 3 * Z.abs (m * Q) <= TB * ((3 * TQ + 4) * TW)).
  { rewrite Z.abs_mul, (Z.abs_eq m) by lia. transitivity (m * ((3 * TQ + 4) * TW)); [|apply Z.mul_le_mono_nonneg_r; nia].
    replace (3 * (m * Z.abs Q)) with (m * (3 * Z.abs Q)) by ring. apply Z.mul_le_mono_nonneg_l; lia. }
  assert (M2 : TB * TW * 4 <= TB * (TW * TQ)) by nia.
  assert (M3 : TB * 4 <= TB * TW) by nia.
  (* in units of X/8 = T *)
  assert (24 * Z.abs (O + m * Q - x) < 12 * X). 2: lia.
  assert (24 * Z.abs (m * Q) <= 24 * (TB * (TW * TQ)) + 32 * (TB * TW)) by lia.
  assert (Z.abs (O + m * Q - x) <= O + Z.abs (m * Q) + Z.abs x) by lia.
  nia.
Qed.

(** bounds on check limbs *)
Definition check_bits (n cb kb : nat) : nat := Nat.max (Nat.max n cb + 1) (2 * n + kb).
Definition check_max (n k cb : nat) : Z := Z.of_nat k * (2 ^ Z.of_nat n * 2 ^ Z.of_nat n) + 2 ^ Z.of_nat cb + 2 ^ Z.of_nat n.
Lemma check_max_bounds (p : positive) lb n k cb kb CB : (1 <= lb)%nat -> (3 <= n)%nat -> Z.of_nat k <= 2 ^ Z.of_nat kb ->
  (cb + 1 <= CB)%nat -> (2 * n + kb <= CB)%nat ->
  let rb := carry_range_bits lb CB n in (rb + n + 2 <= CAPACITY p)%nat ->
  check_max n k cb + 2 ^ Z.of_nat (rb + n) + 2 ^ Z.of_nat rb < Z.pos p /\ 2 * check_max n k cb < Z.pos p /\
  check_max n k cb < 2 ^ Z.of_nat rb * (2 ^ Z.of_nat n - 1) /\ (rb + 1 <= CAPACITY p)%nat.
Proof.
  intros Hlb Hn Hk H1 H2 rb Hrb. pose proof (carry_range_bits_bounds lb CB n Hlb ltac:(lia)) as [R1 R2]. fold rb in R1, R2.
  pose proof (CAPACITY_bound p) as [HP _]. pose proof (pow2_le _ _ Hrb) as P1. rewrite (pow2_add (rb + n) 2) in P1. change (2 ^ Z.of_nat 2) with 4 in P1.
  unfold check_max.
  assert (A1 : Z.of_nat k * (2 ^ Z.of_nat n * 2 ^ Z.of_nat n) <= 2 ^ Z.of_nat CB).
  { transitivity (2 ^ Z.of_nat (2 * n + kb)); [|now apply pow2_le]. replace (2 * n + kb)%nat with (kb + (n + n))%nat by lia. rewrite !pow2_add.
    apply Z.mul_le_mono_nonneg_r; auto. pose proof (pow2_pos n). nia. }
  assert (A2 : 2 * 2 ^ Z.of_nat cb <= 2 ^ Z.of_nat CB). { rewrite <- pow2_S. apply pow2_le. lia. }
  assert (A3 : 8 * 2 ^ Z.of_nat n <= 2 ^ Z.of_nat CB). { change 8 with (2 ^ Z.of_nat 3). rewrite <- pow2_add. apply pow2_le. lia. }
  assert (A4 : 2 * 2 ^ Z.of_nat CB <= 2 ^ Z.of_nat (rb + n)). { rewrite <- pow2_S. apply pow2_le. lia. }
  assert (A5 : 8 * 2 ^ Z.of_nat rb <= 2 ^ Z.of_nat (rb + n)). { change 8 with (2 ^ Z.of_nat 3). rewrite <- pow2_add. apply pow2_le. lia. }
  pose proof (pow2_pos CB). pose proof (pow2_pos rb).
  split; [lia|]. split; [lia|]. split; [|lia].
  replace (2 ^ Z.of_nat rb * (2 ^ Z.of_nat n - 1)) with (2 ^ Z.of_nat (rb + n) - 2 ^ Z.of_nat rb) by (rewrite (pow2_add rb n); ring). lia.
Qed.

(** the same for [check_carry_mod_to_zero], where the check limbs contain no remainder and one bit less is reserved *)
Definition check_max0 (n k cb : nat) : Z := Z.of_nat k * (2 ^ Z.of_nat n * 2 ^ Z.of_nat n) + 2 ^ Z.of_nat cb.
Lemma check_max0_bounds (p : positive) lb n k cb kb CB : (1 <= lb)%nat -> (3 <= n)%nat -> Z.of_nat k < 2 ^ Z.of_nat kb -> (kb + 2 <= n)%nat ->
  (CB = Nat.max cb (2 * n + kb))%nat ->
  let rb := carry_range_bits lb CB n in (rb + n + 2 <= CAPACITY p)%nat ->
  check_max0 n k cb + 2 ^ Z.of_nat (rb + n) + 2 ^ Z.of_nat rb < Z.pos p /\ 2 * check_max0 n k cb < Z.pos p /\
  check_max0 n k cb < 2 ^ Z.of_nat rb * (2 ^ Z.of_nat n - 1) /\ (rb + 1 <= CAPACITY p)%nat.
Proof.
  intros Hlb Hn Hk Hkb ECB rb Hrb. pose proof (carry_range_bits_bounds lb CB n Hlb ltac:(lia)) as [R1 R2]. fold rb in R1, R2.
  pose proof (CAPACITY_bound p) as [HP _]. pose proof (pow2_le _ _ Hrb) as P1. rewrite (pow2_add (rb + n) 2) in P1. change (2 ^ Z.of_nat 2) with 4 in P1.
  unfold check_max0.
  assert (A0 : Z.of_nat k * (2 ^ Z.of_nat n * 2 ^ Z.of_nat n) <= 2 ^ Z.of_nat (2 * n + kb) - 2 ^ Z.of_nat (2 * n)).
  { replace (2 * n + kb)%nat with (kb + (n + n))%nat by lia. replace (2 * n)%nat with (n + n)%nat by lia. rewrite !pow2_add.
    pose proof (pow2_pos n). assert (0 < 2 ^ Z.of_nat n * 2 ^ Z.of_nat n) by nia. set (BB := 2 ^ Z.of_nat n * 2 ^ Z.of_nat n) in *. nia. }
  pose proof (pow2_le (2 * n + kb) CB ltac:(lia)) as A1. pose proof (pow2_le cb CB ltac:(lia)) as A2.
  pose proof (pow2_pos (2 * n)).
  assert (A4 : 2 * 2 ^ Z.of_nat CB <= 2 ^ Z.of_nat (rb + n)). { rewrite <- pow2_S. apply pow2_le. lia. }
  assert (A5 : 8 * 2 ^ Z.of_nat rb <= 2 ^ Z.of_nat (rb + n)). { change 8 with (2 ^ Z.of_nat 3). rewrite <- pow2_add. apply pow2_le. lia. }
  pose proof (pow2_pos CB). pose proof (pow2_pos rb).
  split; [lia|]. split; [lia|]. split; [|lia].
  assert (L : 2 ^ Z.of_nat (CB + 1 - n) * (2 ^ Z.of_nat n - 1) <= 2 ^ Z.of_nat rb * (2 ^ Z.of_nat n - 1)).
  { apply Z.mul_le_mono_nonneg_r; [pose proof (pow2_pos n); lia|]. apply pow2_le. lia. }
  replace (2 ^ Z.of_nat (CB + 1 - n) * (2 ^ Z.of_nat n - 1)) with (2 * 2 ^ Z.of_nat CB - 2 ^ Z.of_nat (CB + 1 - n)) in L.
  2:{ rewrite Z.mul_sub_distr_l, <- pow2_add, <- pow2_S. replace (CB + 1 - n + n)%nat with (S CB) by lia. lia. }
  destruct (Nat.eq_dec cb CB) as [Ecb|Ecb]; [|].
  - destruct (Nat.eq_dec CB (2 * n + kb)) as [Ek|Ek].
    + assert (2 * 2 ^ Z.of_nat (CB + 1 - n) <= 2 ^ Z.of_nat (2 * n)). { rewrite <- pow2_S. apply pow2_le. lia. }
      rewrite Ek in *. pose proof (pow2_pos (2 * n + kb + 1 - n)). lia.
    + assert (2 * 2 ^ Z.of_nat (2 * n + kb) <= 2 ^ Z.of_nat CB). { rewrite <- pow2_S. apply pow2_le. lia. }
      assert (4 * 2 ^ Z.of_nat (CB + 1 - n) <= 2 ^ Z.of_nat CB). { change 4 with (2 ^ Z.of_nat 2). rewrite <- pow2_add. apply pow2_le. lia. }
      lia.
  - assert (2 * 2 ^ Z.of_nat cb <= 2 ^ Z.of_nat CB). { rewrite <- pow2_S. apply pow2_le. lia. }
    assert (4 * 2 ^ Z.of_nat (CB + 1 - n) <= 2 ^ Z.of_nat CB). { change 4 with (2 ^ Z.of_nat 2). rewrite <- pow2_add. apply pow2_le. lia. }
    lia.
Qed.

(** the integers in the check limbs *)
Lemma check_ints n k m ls qs os cb om : (1 <= n)%nat -> length ls = k -> length qs = k -> length os = k -> 0 <= om ->
  Forall (fun x => Z.abs x <= 2 ^ Z.of_nat n) qs -> Forall (fun x => Z.abs x <= 2 ^ Z.of_nat cb) ls -> Forall (fun x => Z.abs x <= om) os ->
  0 <= m < 2 ^ Z.of_nat (n * k) ->
  let ds := map2 Z.add (map2 Z.sub (tmul qs (digits n k m)) ls) os in
  Forall (fun d => Z.abs d <= Z.of_nat k * (2 ^ Z.of_nat n * 2 ^ Z.of_nat n) + 2 ^ Z.of_nat cb + om) ds /\ length ds = k /\
  (2 ^ Z.of_nat (n * k) | undigits n ds - (undigits n os + m * undigits n qs - undigits n ls)).
Proof.
  intros Hn L1 L2 L3 Hom Fq Fl Fo Hm ds. pose proof (pow2_pos n) as HB. pose proof (pow2_pos cb) as HC.
  assert (Lt : length (tmul qs (digits n k m)) = k) by (rewrite tmul_length; auto).
  assert (Ft : Forall (fun d => Z.abs d <= Z.of_nat k * (2 ^ Z.of_nat n * 2 ^ Z.of_nat n)) (tmul qs (digits n k m))).
  { unfold tmul. apply Forall_map. apply Forall_forall. intros i Hi. apply in_seq in Hi. rewrite <- L2. apply conv_bound; try lia; auto.
    eapply Forall_impl; [|apply digits_bound]. cbv beta. intros; lia. }
  assert (Ls : length (map2 Z.sub (tmul qs (digits n k m)) ls) = k) by (rewrite map2_length; lia).
  split; [|split].
  - unfold ds. eapply (Forall_map2 Z.add (fun d => Z.abs d <= Z.of_nat k * (2 ^ Z.of_nat n * 2 ^ Z.of_nat n) + 2 ^ Z.of_nat cb) (fun x => Z.abs x <= om)); auto.
    + intros; lia.
    + eapply (Forall_map2 Z.sub (fun d => Z.abs d <= Z.of_nat k * (2 ^ Z.of_nat n * 2 ^ Z.of_nat n)) (fun x => Z.abs x <= 2 ^ Z.of_nat cb)); auto. intros; lia.
  - unfold ds. rewrite map2_length; lia.
  - unfold ds. rewrite U_add, U_sub by lia.
    pose proof (tmul_spec n qs (digits n k m) ltac:(rewrite digits_length; lia)) as HT. rewrite L2, undigits_digits, Z.mod_small in HT by lia.
    destruct HT as [t Ht]. exists t. lia.
Qed.
