(** Big-endian lists of bits and the word operations of SHA-256. *)
From Coq Require Import ZArith Lia List Bool.
From Verif Require Import ShaSpec ShaCircuit.
Import ListNotations.
Local Open Scope Z_scope.

(** little-endian and big-endian values of bit lists *)
Fixpoint lz (l : list bool) : Z := match l with [] => 0 | b :: l => b2z b + 2 * lz l end.
Definition bz (l : list bool) : Z := lz (rev l).

Lemma b2z_bound b : 0 <= b2z b <= 1.
Proof. destruct b; simpl; lia. Qed.
Lemma lz_bound l : 0 <= lz l < 2 ^ Z.of_nat (length l).
Proof.
  induction l as [|b l IH]; [simpl; lia|]. cbn [lz length]. rewrite Nat2Z.inj_succ, Z.pow_succ_r by lia.
  pose proof (b2z_bound b). lia.
Qed.
Lemma bz_bound l : 0 <= bz l < 2 ^ Z.of_nat (length l).
Proof. unfold bz. rewrite <- (rev_length l). apply lz_bound. Qed.
Lemma lz_app l l' : lz (l ++ l') = lz l + 2 ^ Z.of_nat (length l) * lz l'.
Proof.
  induction l as [|b l IH]; [cbn [app lz length]; change (2 ^ Z.of_nat 0) with 1; lia|]. cbn [app lz length].
  rewrite IH, Nat2Z.inj_succ, Z.pow_succ_r by lia. lia.
Qed.
Lemma bz_app l l' : bz (l ++ l') = bz l * 2 ^ Z.of_nat (length l') + bz l'.
Proof. unfold bz. rewrite rev_app_distr, lz_app, rev_length. lia. Qed.
Lemma lz_testbit l : forall i, Z.testbit (lz l) (Z.of_nat i) = nth i l false.
Proof.
  induction l as [|b l IH]; intros i.
  - cbn [lz]. rewrite Z.bits_0. destruct i; reflexivity.
  - cbn [lz]. replace (b2z b + 2 * lz l) with (2 * lz l + Z.b2z b) by (destruct b; cbn [b2z Z.b2z]; lia).
    destruct i as [|i].
    + rewrite Z.testbit_0_r. reflexivity.
    + rewrite Nat2Z.inj_succ, Z.testbit_succ_r by lia. rewrite IH. reflexivity.
Qed.
Lemma lz_eq l z : 0 <= z -> (forall i : nat, Z.testbit z (Z.of_nat i) = nth i l false) -> lz l = z.
Proof.
  intros Hz H. apply Z.bits_inj'. intros n Hn. rewrite <- (Z2Nat.id n) by lia. now rewrite lz_testbit, H.
Qed.

Lemma rev_combine {A B} (a : list A) (b : list B) : length a = length b -> rev (combine a b) = combine (rev a) (rev b).
Proof.
  revert b. induction a as [|x a IH]; intros [|y b] H; simpl in *; try discriminate; auto.
  rewrite IH by congruence. clear IH. injection H as H.
  assert (L : length (rev a) = length (rev b)) by (rewrite !rev_length; exact H).
  revert L. generalize (rev a) (rev b). intros u. induction u as [|c u IH]; intros [|d v] L; simpl in *; try discriminate; auto.
  f_equal. apply IH. congruence.
Qed.
Lemma rev_map2 {A B C} (f : A -> B -> C) a b : length a = length b -> rev (map2 f a b) = map2 f (rev a) (rev b).
Proof. intros. unfold map2. now rewrite <- map_rev, rev_combine. Qed.
Lemma map2_length {A B C} (f : A -> B -> C) a b : length a = length b -> length (map2 f a b) = length a.
Proof. intros. unfold map2. rewrite map_length, combine_length. lia. Qed.
Lemma nth_map2 {A B C} (f : A -> B -> C) a b da db dc i : length a = length b -> f da db = dc ->
  nth i (map2 f a b) dc = f (nth i a da) (nth i b db).
Proof.
  intros H Hd. unfold map2. rewrite <- Hd. change (f da db) with ((fun xy => f (fst xy) (snd xy)) (da, db)).
  rewrite map_nth, combine_nth by assumption. reflexivity.
Qed.

Lemma bz_xor a b : length a = length b -> bz (map2 xorb a b) = Z.lxor (bz a) (bz b).
Proof.
  intros H. unfold bz. rewrite rev_map2 by assumption. apply lz_eq.
  - apply Z.lxor_nonneg. pose proof (lz_bound (rev a)). pose proof (lz_bound (rev b)). lia.
  - intros i. rewrite Z.lxor_spec, !lz_testbit. symmetry. apply nth_map2; [rewrite !rev_length; assumption|reflexivity].
Qed.
Definition sel_bit (c : bool) (tf : bool * bool) : bool := if c then fst tf else snd tf.
Lemma nth_comb {A B} (a : list A) (b : list B) i da db : length a = length b -> nth i (combine a b) (da, db) = (nth i a da, nth i b db).
Proof. intros. now apply combine_nth. Qed.
Lemma bz_ch e f g : length e = length f -> length f = length g ->
  bz (map2 sel_bit e (combine f g)) = Ch (bz e) (bz f) (bz g).
Proof.
  intros H1 H2. assert (HL : length e = length (combine f g)) by (rewrite combine_length; lia).
  unfold bz. rewrite rev_map2, rev_combine by assumption. apply lz_eq.
  - unfold Ch. apply Z.lxor_nonneg. pose proof (lz_bound (rev e)). pose proof (lz_bound (rev f)). pose proof (lz_bound (rev g)).
    rewrite Z.land_nonneg, Z.ldiff_nonneg. lia.
  - intros i. unfold Ch. rewrite Z.lxor_spec, Z.land_spec, Z.ldiff_spec, !lz_testbit.
    rewrite (nth_map2 _ _ _ false (false, false) false).
    2: rewrite combine_length, !rev_length; lia. 2: reflexivity.
    rewrite nth_comb by (rewrite !rev_length; assumption). unfold sel_bit. cbn [fst snd].
    destruct (nth i (rev e) false), (nth i (rev f) false), (nth i (rev g) false); reflexivity.
Qed.
Lemma bz_maj a b c : length a = length b -> length b = length c ->
  bz (map2 sel_bit (map2 xorb b c) (combine a b)) = Maj (bz a) (bz b) (bz c).
Proof.
  intros H1 H2. unfold bz. rewrite rev_map2, rev_map2, rev_combine; [|assumption..|rewrite map2_length, combine_length; lia].
  apply lz_eq.
  - unfold Maj. rewrite !Z.lxor_nonneg, !Z.land_nonneg.
    pose proof (lz_bound (rev a)). pose proof (lz_bound (rev b)). pose proof (lz_bound (rev c)). lia.
  - intros i. unfold Maj. rewrite !Z.lxor_spec, !Z.land_spec, !lz_testbit.
    rewrite (nth_map2 _ _ _ false (false, false) false).
    2: rewrite map2_length, combine_length, !rev_length; rewrite ?rev_length; lia. 2: reflexivity.
    rewrite nth_comb by (rewrite !rev_length; assumption).
    rewrite (nth_map2 _ _ _ false false false) by (rewrite ?rev_length; auto).
    unfold sel_bit. cbn [fst snd].
    destruct (nth i (rev a) false), (nth i (rev b) false), (nth i (rev c) false); reflexivity.
Qed.

Lemma testbit_high l i : (length l <= i)%nat -> Z.testbit (lz l) (Z.of_nat i) = false.
Proof. intros. rewrite lz_testbit. apply nth_overflow. assumption. Qed.

Lemma bz_rotate l n : length l = 32%nat -> (0 < n < 32)%nat -> bz (rotate_expr l n) = rotr (Z.of_nat n) (bz l).
Proof.
  intros HL Hn. unfold rotate_expr. rewrite HL. unfold bz. rewrite rev_app_distr.
  set (m := rev l). assert (HM : length m = 32%nat) by (unfold m; now rewrite rev_length).
  assert (E1 : rev (firstn (32 - n) l) = skipn n m).
  { unfold m. rewrite firstn_skipn_rev, rev_involutive, HL. f_equal. f_equal; lia. }
  assert (E2 : rev (skipn (32 - n) l) = firstn n m).
  { unfold m. rewrite firstn_rev, HL. reflexivity. }
  fold m. rewrite E1, E2. apply lz_eq.
  - unfold rotr. rewrite Z.lor_nonneg, Z.shiftr_nonneg. pose proof (lz_bound m).
    pose proof (Z.mod_pos_bound (Z.shiftl (lz m) (32 - Z.of_nat n)) (2 ^ 32) ltac:(lia)). lia.
  - intros i. unfold rotr. rewrite Z.lor_spec, Z.shiftr_spec by lia.
    replace (Z.of_nat i + Z.of_nat n) with (Z.of_nat (n + i)) by lia. rewrite lz_testbit.
    destruct (Nat.lt_ge_cases i (32 - n)) as [Hi|Hi].
    + rewrite app_nth1 by (rewrite skipn_length; lia).
      rewrite Z.mod_pow2_bits_low by lia. rewrite Z.shiftl_spec_low by lia. rewrite orb_false_r.
      rewrite <- (firstn_skipn n m) at 1. rewrite app_nth2 by (rewrite firstn_length; lia). f_equal.
      rewrite firstn_length. lia.
    + rewrite app_nth2 by (rewrite skipn_length; lia). rewrite skipn_length, HM.
      rewrite (nth_overflow m) by lia. cbn [orb].
      destruct (Nat.lt_ge_cases i 32) as [Hi2|Hi2].
      * rewrite Z.mod_pow2_bits_low by lia. rewrite Z.shiftl_spec_high by lia.
        replace (Z.of_nat i - (32 - Z.of_nat n)) with (Z.of_nat (i - (32 - n))) by lia. rewrite lz_testbit.
        rewrite <- (firstn_skipn n m) at 1. rewrite app_nth1 by (rewrite firstn_length; lia). reflexivity.
      * rewrite Z.mod_pow2_bits_high by lia. symmetry. apply nth_overflow. rewrite firstn_length. lia.
Qed.
Lemma bz_shift l n : length l = 32%nat -> (0 < n < 32)%nat ->
  bz (repeat false n ++ firstn (32 - n) l) = Z.shiftr (bz l) (Z.of_nat n).
Proof.
  intros HL Hn. unfold bz. rewrite rev_app_distr. set (m := rev l).
  assert (HM : length m = 32%nat) by (unfold m; now rewrite rev_length).
  assert (E1 : rev (firstn (32 - n) l) = skipn n m).
  { unfold m. rewrite firstn_skipn_rev, rev_involutive, HL. f_equal. f_equal; lia. }
  rewrite E1. apply lz_eq.
  - rewrite Z.shiftr_nonneg. apply lz_bound.
  - intros i. rewrite Z.shiftr_spec by lia. replace (Z.of_nat i + Z.of_nat n) with (Z.of_nat (n + i)) by lia.
    rewrite lz_testbit. destruct (Nat.lt_ge_cases i (32 - n)) as [Hi|Hi].
    + rewrite app_nth1 by (rewrite skipn_length; lia).
      rewrite <- (firstn_skipn n m) at 1. rewrite app_nth2 by (rewrite firstn_length; lia). f_equal. rewrite firstn_length. lia.
    + rewrite (nth_overflow m) by lia. rewrite app_nth2 by (rewrite skipn_length; lia).
      symmetry. generalize (i - length (skipn n m))%nat. intros k.
      assert (HR : forall k, nth k (rev (repeat false n)) false = false).
      { clear. intros k. destruct (Nat.lt_ge_cases k (length (rev (repeat false n)))) as [H|H].
        - assert (I : In (nth k (rev (repeat false n)) false) (rev (repeat false n))) by now apply nth_In.
          apply in_rev in I. now apply repeat_spec in I.
        - now apply nth_overflow. }
      apply HR.
Qed.
Lemma rotate_length {A} (l : list A) n : length (rotate_expr l n) = length l.
Proof. unfold rotate_expr. rewrite app_length, skipn_length, firstn_length. lia. Qed.
