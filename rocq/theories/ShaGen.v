(** The rows produced by the SHA-256 witness generation, described one by one. *)
From Coq Require Import ZArith Lia List Bool Ring.
From Verif Require Import Field Spec ShaSpec ShaCircuit ShaBits ShaEval ShaBlock ShaMsg ShaWitness.
Import ListNotations.
Local Open Scope Z_scope.

(** * Bits of integers *)
Definition tobits (n : nat) (v : Z) : list bool := map (fun i => Z.testbit v (Z.of_nat (n - 1 - i))) (seq 0 n).
Lemma tobits_len n v : length (tobits n v) = n. Proof. unfold tobits. now rewrite map_length, seq_length. Qed.
Lemma tobits_S n v : tobits (S n) v = Z.testbit v (Z.of_nat n) :: tobits n v.
Proof.
  unfold tobits. cbn [seq map]. f_equal; [do 2 f_equal; lia|]. rewrite <- seq_shift, map_map. apply map_ext_in. intros i Hi. do 2 f_equal. lia.
Qed.
Lemma tobits_app m n v : 0 <= v -> tobits (m + n) v = tobits m (v / 2 ^ Z.of_nat n) ++ tobits n v.
Proof.
  intros Hv. induction m as [|m IH]; [reflexivity|]. cbn [Nat.add]. rewrite !tobits_S. cbn [app]. rewrite IH. f_equal.
  rewrite <- Z.shiftr_div_pow2 by lia. rewrite Z.shiftr_spec by lia. f_equal. lia.
Qed.
Lemma tobits_mod n v m : (Z.of_nat n <= m) -> tobits n (v mod 2 ^ m) = tobits n v.
Proof. intros H. unfold tobits. apply map_ext_in. intros i Hi. apply in_seq in Hi. apply Z.mod_pow2_bits_low. lia. Qed.
Lemma bz_cons b l : bz (b :: l) = b2z b * 2 ^ Z.of_nat (length l) + bz l.
Proof. change (b :: l) with ([b] ++ l). rewrite bz_app. f_equal. f_equal. unfold bz. cbn. lia. Qed.
Lemma bz_tobits n v : 0 <= v -> bz (tobits n v) = v mod 2 ^ Z.of_nat n.
Proof.
  intros Hv. induction n as [|n IH]; [cbn; now rewrite Z.mod_1_r|]. rewrite tobits_S, bz_cons, IH, tobits_len.
  rewrite Nat2Z.inj_succ. replace (Z.succ (Z.of_nat n)) with (Z.of_nat n + 1) by lia.
  rewrite Z.pow_add_r, (Z.rem_mul_r v (2 ^ Z.of_nat n) (2 ^ 1)) by (try apply Z.pow_nonzero; lia).
  change (2 ^ 1) with 2. rewrite <- Z.bit0_mod. rewrite Z.div_pow2_bits by lia. rewrite Z.add_0_l.
  destruct (Z.testbit v (Z.of_nat n)); cbn [b2z Z.b2z]; lia.
Qed.
Lemma into_app a b : into_be_bits (a ++ b) = into_be_bits a ++ into_be_bits b.
Proof. apply flat_map_app. Qed.
Lemma into_cons b l : into_be_bits (b :: l) = tobits 8 b ++ into_be_bits l.
Proof. unfold into_be_bits. cbn [flat_map]. f_equal. Qed.
Lemma into_len l : length (into_be_bits l) = (8 * length l)%nat.
Proof. induction l as [|b l IH]; [reflexivity|]. rewrite into_cons, app_length, IH, tobits_len. cbn [length]. lia. Qed.
Lemma into_be m : forall v, 0 <= v -> into_be_bits (be_bytes m v) = tobits (8 * m) v.
Proof.
  induction m as [|m IH]; intros v Hv; [reflexivity|]. cbn [be_bytes]. rewrite into_app, IH by (apply Z.div_pos; lia).
  rewrite into_cons. replace (8 * S m)%nat with (8 * m + 8)%nat by lia. rewrite tobits_app by exact Hv.
  change (2 ^ Z.of_nat 8) with 256. f_equal. cbn [into_be_bits flat_map]. rewrite app_nil_r. change 256 with (2 ^ 8). apply tobits_mod. lia.
Qed.
Lemma word_bits v n : 0 <= v -> (n <= 64)%nat -> word_to_bits v n = tobits n v.
Proof.
  intros Hv Hn. unfold word_to_bits. rewrite into_be by exact Hv. replace (8 * 8)%nat with ((64 - n) + n)%nat by lia.
  rewrite tobits_app by exact Hv. rewrite skipn_app, tobits_len, Nat.sub_diag. cbn [skipn]. rewrite skipn_all2 by (rewrite tobits_len; lia). reflexivity.
Qed.
Lemma bz_into l : Forall (fun x => 0 <= x < 256) l -> bz (into_be_bits l) = be_val l.
Proof.
  intros H. rewrite <- (be_bytes_unique (length l) l eq_refl H) at 1.
  assert (B : 0 <= be_val l < 256 ^ Z.of_nat (length l)).
  { clear - H. induction l as [|x l IH] using rev_ind; [cbn; lia|]. apply Forall_app in H. destruct H as [H1 H2].
    apply Forall_cons_iff in H2. destruct H2 as [H2 _]. specialize (IH H1). rewrite be_val_snoc, app_length. cbn [length].
    rewrite Nat.add_1_r, Nat2Z.inj_succ, Z.pow_succ_r by lia. lia. }
  rewrite into_be by lia. rewrite bz_tobits by lia. apply Z.mod_small.
  replace (2 ^ Z.of_nat (8 * length l)) with (256 ^ Z.of_nat (length l)); [exact B|].
  rewrite Nat2Z.inj_mul. rewrite Z.pow_mul_r by lia. reflexivity.
Qed.
Lemma low32_mod x : low32 x = x mod 2 ^ 32.
Proof. unfold low32. change 0xFFFFFFFF with (Z.ones 32). apply Z.land_ones. lia. Qed.
Lemma low32_small x : 0 <= x < 2 ^ 32 -> low32 x = x.
Proof. intros. rewrite low32_mod. now apply Z.mod_small. Qed.

(** * Lists *)
Lemma skipn_skipn' {A} m n (l : list A) : skipn m (skipn n l) = skipn (n + m) l.
Proof. revert l. induction n as [|n IH]; intros l; [reflexivity|]. destruct l; [now rewrite !skipn_nil|]. cbn [skipn Nat.add]. apply IH. Qed.
Lemma nth_pieces {A} m n : (0 < m)%nat -> forall fuel (l : list A), (n < fuel)%nat -> (m * n < length l)%nat ->
  nth n (pieces fuel m l) [] = firstn m (skipn (m * n) l).
Proof.
  intros Hm. induction n as [|n IH]; intros fuel l Hf HL.
  - rewrite Nat.mul_0_r in *. destruct fuel; [lia|]. destruct l; [cbn [length] in HL; lia|]. reflexivity.
  - destruct fuel as [|fuel]; [lia|]. destruct l as [|x l]; [cbn [length] in HL; lia|]. cbn [pieces]. change (nth (S n) (?a :: ?b) []) with (nth n b []).
    rewrite IH; [|lia|rewrite skipn_length; lia]. rewrite skipn_skipn'. do 2 f_equal. lia.
Qed.
Lemma pieces_length {A} m : (0 < m)%nat -> forall n fuel (l : list A), length l = (m * n)%nat -> (n <= fuel)%nat -> length (pieces fuel m l) = n.
Proof.
  intros Hm. induction n as [|n IH]; intros fuel l HL Hf.
  - rewrite Nat.mul_0_r in HL. destruct l; [|discriminate HL]. destruct fuel; reflexivity.
  - destruct fuel as [|fuel]; [lia|]. destruct l as [|x l]; [cbn [length] in HL; lia|]. cbn [pieces length]. f_equal. apply IH; [|lia].
    rewrite skipn_length. lia.
Qed.
Lemma firstn_into k l : firstn (8 * k) (into_be_bits l) = into_be_bits (firstn k l).
Proof.
  revert l. induction k as [|k IH]; intros l; [reflexivity|]. destruct l as [|x l]; [now rewrite !firstn_nil|].
  cbn [firstn]. rewrite !into_cons. replace (8 * S k)%nat with (8 + 8 * k)%nat by lia.
  rewrite firstn_app, tobits_len. replace (8 + 8 * k - 8)%nat with (8 * k)%nat by lia. rewrite IH. f_equal.
  apply firstn_all2. rewrite tobits_len. lia.
Qed.
Lemma skipn_into k l : skipn (8 * k) (into_be_bits l) = into_be_bits (skipn k l).
Proof.
  revert l. induction k as [|k IH]; intros l; [reflexivity|]. destruct l as [|x l]; [now rewrite !skipn_nil|].
  cbn [skipn]. rewrite !into_cons. replace (8 * S k)%nat with (8 + 8 * k)%nat by lia.
  rewrite skipn_app, tobits_len. replace (8 + 8 * k - 8)%nat with (8 * k)%nat by lia. rewrite IH.
  rewrite skipn_all2 by (rewrite tobits_len; lia). reflexivity.
Qed.

(** * One block *)
Record bdesc := BD { d_hs : hstate; d_bytes : list Z; d_n : nat; d_idx : nat; d_fin : bool }.
Definition hsb (s : hstate) : Prop :=
  (0 <= ha s < 2 ^ 32 /\ 0 <= hb s < 2 ^ 32 /\ 0 <= hc s < 2 ^ 32 /\ 0 <= hd s < 2 ^ 32) /\
  (0 <= he s < 2 ^ 32 /\ 0 <= hf s < 2 ^ 32 /\ 0 <= hg s < 2 ^ 32 /\ 0 <= hh s < 2 ^ 32).
Definition sched d : list Z := schedule 48 (sha_words (d_bytes d)).
Definition W d n : Z := nth n (sched d) 0.
Definition St d n : hstate := fold_left sha_round (firstn n (combine sha_K (sched d))) (d_hs d).
Definition lenq d q : Z := Z.of_nat (Nat.min (d_n d) (64 * d_idx d + 4 * q)).
Definition prevp d q : bool := (d_n d <? 64 * d_idx d + 4 * q)%nat.
Definition pads d q : list bool := map (fun k => (d_n d <=? 64 * d_idx d + 4 * q + k)%nat) (seq 0 4).
Definition t1 (s : hstate) (k w : Z) : Z := hh s + Sigma1 (he s) + Ch (he s) (hf s) (hg s) + k + w.
Definition t2 (s : hstate) : Z := Sigma0 (ha s) + Maj (ha s) (hb s) (hc s).
Definition wext d n : Z :=
  if (n <? 16)%nat then W d n else W d (n - 16) + sigma0 (W d (n - 15)) + W d (n - 7) + sigma1 (W d (n - 2)).
Definition aext d n : Z := t1 (St d n) (nth n sha_K 0) (W d n) + t2 (St d n).
Definition eext d n : Z := hd (St d n) + t1 (St d n) (nth n sha_K 0) (W d n).
(** the value of the words in the row *)
Definition wv d (i : nat) : Z := if (i <? 4)%nat then 0 else if (i <? 68)%nat then wext d (i - 4) else 0.
Definition av d (i : nat) : Z :=
  if (i <? 4)%nat then nth (3 - i) [ha (d_hs d); hb (d_hs d); hc (d_hs d); hd (d_hs d)] 0
  else if (i <? 68)%nat then aext d (i - 4)
  else nth (71 - i) [ha (d_hs d) + ha (St d 64); hb (d_hs d) + hb (St d 64); hc (d_hs d) + hc (St d 64); hd (d_hs d) + hd (St d 64)] 0.
Definition ev d (i : nat) : Z :=
  if (i <? 4)%nat then nth (3 - i) [he (d_hs d); hf (d_hs d); hg (d_hs d); hh (d_hs d)] 0
  else if (i <? 68)%nat then eext d (i - 4)
  else nth (71 - i) [he (d_hs d) + he (St d 64); hf (d_hs d) + hf (St d 64); hg (d_hs d) + hg (St d 64); hh (d_hs d) + hh (St d 64)] 0.
Definition d_input (i : nat) : bool := ((4 <=? i) && (i <? 20))%nat.
Definition d_pads d (i : nat) : list bool :=
  if (i <? 4)%nat then [false; false; false; prevp d 0] else if (i <? 20)%nat then pads d (i - 4)
  else [false; false; false; if (i =? 71)%nat then prevp d 16 else false].
Definition d_final d (i : nat) : bool := if (i <? 4)%nat then (d_idx d =? 0)%nat else if (i =? 71)%nat then d_fin d else false.
Definition d_len d (i : nat) : Z :=
  if (i <? 4)%nat then lenq d 0 else if (i <? 20)%nat then lenq d (i - 3) else if (i =? 71)%nat then lenq d 16 else 0.
Definition hs_out d : hstate := hs_add (d_hs d) (St d 64).
Definition d_hash d : list Z := if d_fin d then hs_bytes (hs_out d) else repeat 0 32.
Definition d_limb d (i : nat) : Z :=
  if (i =? 71)%nat then be_val (skipn 16 (d_hash d)) else if (i =? 70)%nat then be_val (firstn 16 (d_hash d)) else 0.
Definition drow d i : vrow := add_row (wv d i) (av d i) (ev d i) (d_final d i) (d_len d i) (d_pads d i) (d_limb d i) (d_input i).

Lemma K_eq : sha_K = ROUND_CST. Proof. reflexivity. Qed.
Lemma rotr_bound n x : 0 <= n <= 32 -> 0 <= x < 2 ^ 32 -> 0 <= rotr n x < 2 ^ 32.
Proof.
  intros Hn Hx. unfold rotr.
  assert (B1 : 0 <= Z.shiftr x n < 2 ^ 32).
  { rewrite Z.shiftr_div_pow2 by lia. split; [apply Z.div_pos; lia|]. apply Z.div_lt_upper_bound; [lia|].
    assert (1 <= 2 ^ n) by (apply (Z.pow_le_mono_r 2 0 n); lia). nia. }
  pose proof (Z.mod_pos_bound (Z.shiftl x (32 - n)) (2 ^ 32) ltac:(lia)) as B2.
  set (a := Z.shiftr x n) in *. set (b := Z.shiftl x (32 - n) mod 2 ^ 32) in *. clearbody a b.
  assert (0 <= Z.lor a b) by (apply Z.lor_nonneg; lia). split; [assumption|].
  destruct (Z.eq_dec (Z.lor a b) 0) as [->|Hne]; [lia|]. apply Z.log2_lt_pow2; [lia|]. rewrite Z.log2_lor by lia.
  apply Z.max_lub_lt; (destruct (Z.eq_dec a 0) as [->|]; destruct (Z.eq_dec b 0) as [->|]; try (cbn; lia); try (apply Z.log2_lt_pow2; lia)).
Qed.
Lemma log_lt z : 0 <= z -> (z < 2 ^ 32 <-> forall i, 32 <= i -> Z.testbit z i = false).
Proof.
  intros Hz. split.
  - intros H i Hi. destruct (Z.eq_dec z 0) as [->|]; [apply Z.testbit_0_l|]. apply Z.bits_above_log2; [lia|].
    apply Z.lt_le_trans with 32; [|lia]. apply Z.log2_lt_pow2; lia.
  - intros H. destruct (Z.eq_dec z 0) as [->|]; [lia|]. apply Z.log2_lt_pow2; [lia|].
    destruct (Z.lt_ge_cases (Z.log2 z) 32) as [|G]; [assumption|]. specialize (H _ G). rewrite Z.bit_log2 in H by lia. discriminate H.
Qed.
Lemma lxor_bound a b : 0 <= a < 2 ^ 32 -> 0 <= b < 2 ^ 32 -> 0 <= Z.lxor a b < 2 ^ 32.
Proof.
  intros Ha Hb. assert (N : 0 <= Z.lxor a b) by (apply Z.lxor_nonneg; lia). split; [exact N|]. apply log_lt; [exact N|].
  intros i Hi. rewrite Z.lxor_spec. rewrite (proj1 (log_lt a ltac:(lia)) ltac:(lia) i Hi), (proj1 (log_lt b ltac:(lia)) ltac:(lia) i Hi). reflexivity.
Qed.
Lemma land_bound a b : 0 <= a < 2 ^ 32 -> 0 <= b < 2 ^ 32 -> 0 <= Z.land a b < 2 ^ 32.
Proof.
  intros Ha Hb. assert (N : 0 <= Z.land a b) by (apply Z.land_nonneg; lia). split; [exact N|]. apply log_lt; [exact N|].
  intros i Hi. rewrite Z.land_spec. rewrite (proj1 (log_lt a ltac:(lia)) ltac:(lia) i Hi). reflexivity.
Qed.
Lemma ldiff_bound a b : 0 <= a < 2 ^ 32 -> 0 <= b < 2 ^ 32 -> 0 <= Z.ldiff a b < 2 ^ 32.
Proof.
  intros Ha Hb. assert (N : 0 <= Z.ldiff a b) by (apply Z.ldiff_nonneg; lia). split; [exact N|]. apply log_lt; [exact N|].
  intros i Hi. rewrite Z.ldiff_spec. rewrite (proj1 (log_lt a ltac:(lia)) ltac:(lia) i Hi). reflexivity.
Qed.
Lemma shiftr_bound a n : 0 <= n -> 0 <= a < 2 ^ 32 -> 0 <= Z.shiftr a n < 2 ^ 32.
Proof.
  intros Hn Ha. assert (N : 0 <= Z.shiftr a n) by (apply Z.shiftr_nonneg; lia). split; [exact N|]. apply log_lt; [exact N|].
  intros i Hi. rewrite Z.shiftr_spec by lia. apply (proj1 (log_lt a ltac:(lia)) ltac:(lia)). lia.
Qed.
Lemma S0_b x : 0 <= x < 2 ^ 32 -> 0 <= Sigma0 x < 2 ^ 32.
Proof. intros. unfold Sigma0. repeat apply lxor_bound; apply rotr_bound; lia. Qed.
Lemma S1_b x : 0 <= x < 2 ^ 32 -> 0 <= Sigma1 x < 2 ^ 32.
Proof. intros. unfold Sigma1. repeat apply lxor_bound; apply rotr_bound; lia. Qed.
Lemma s0_b x : 0 <= x < 2 ^ 32 -> 0 <= sigma0 x < 2 ^ 32.
Proof. intros. unfold sigma0. repeat apply lxor_bound; try apply rotr_bound; try apply shiftr_bound; lia. Qed.
Lemma s1_b x : 0 <= x < 2 ^ 32 -> 0 <= sigma1 x < 2 ^ 32.
Proof. intros. unfold sigma1. repeat apply lxor_bound; try apply rotr_bound; try apply shiftr_bound; lia. Qed.
Lemma Ch_b x y z : 0 <= x < 2 ^ 32 -> 0 <= y < 2 ^ 32 -> 0 <= z < 2 ^ 32 -> 0 <= Ch x y z < 2 ^ 32.
Proof. intros. unfold Ch. apply lxor_bound; [now apply land_bound|now apply ldiff_bound]. Qed.
Lemma Maj_b x y z : 0 <= x < 2 ^ 32 -> 0 <= y < 2 ^ 32 -> 0 <= z < 2 ^ 32 -> 0 <= Maj x y z < 2 ^ 32.
Proof. intros. unfold Maj. repeat apply lxor_bound; now apply land_bound. Qed.

(** the message schedule *)
Lemma schedule_len n : forall w, length (schedule n w) = (length w + n)%nat.
Proof. induction n as [|n IH]; intros w; cbn [schedule]; [lia|]. rewrite IH, app_length. cbn [length]. lia. Qed.
Lemma schedule_prefix n : forall w t, (t < length w)%nat -> nth t (schedule n w) 0 = nth t w 0.
Proof.
  induction n as [|n IH]; intros w t Ht; [reflexivity|]. cbn [schedule]. rewrite IH by (rewrite app_length; lia). now apply app_nth1.
Qed.
Lemma schedule_nth n : forall w t, (16 <= length w)%nat -> (length w <= t < length w + n)%nat ->
  let s := schedule n w in
  nth t s 0 = (sigma1 (nth (t - 2) s 0) + nth (t - 7) s 0 + sigma0 (nth (t - 15) s 0) + nth (t - 16) s 0) mod 2 ^ 32.
Proof.
  induction n as [|n IH]; intros w t H16 Ht; [lia|]. cbn [schedule]. cbv zeta.
  match goal with |- context[schedule n ?x] => set (w' := x) end.
  assert (L : length w' = S (length w)) by (unfold w'; rewrite app_length; cbn [length]; lia).
  destruct (Nat.eq_dec t (length w)) as [->|Hne].
  - rewrite !schedule_prefix by lia. unfold w' at 1. rewrite app_nth2, Nat.sub_diag by lia. cbn [nth].
    unfold w'. rewrite !app_nth1 by lia. reflexivity.
  - apply IH; lia.
Qed.
Definition dok d : Prop := hsb (d_hs d) /\ length (d_bytes d) = 64%nat /\ Forall (fun x => 0 <= x < 256) (d_bytes d).
Lemma words_len d : dok d -> length (sha_words (d_bytes d)) = 16%nat.
Proof. intros (_ & HL & _). unfold sha_words. rewrite map_length. apply (pieces_length 4); [lia|rewrite HL; reflexivity|lia]. Qed.
Lemma sched_len d : dok d -> length (sched d) = 64%nat.
Proof. intros H. unfold sched. rewrite schedule_len, words_len by exact H. reflexivity. Qed.
Lemma Forall_firstn' {A} (P : A -> Prop) n l : Forall P l -> Forall P (firstn n l).
Proof. intros H. rewrite <- (firstn_skipn n l) in H. now apply Forall_app in H. Qed.
Lemma Forall_skipn' {A} (P : A -> Prop) n l : Forall P l -> Forall P (skipn n l).
Proof. intros H. rewrite <- (firstn_skipn n l) in H. now apply Forall_app in H. Qed.
Lemma W_in d n : dok d -> (n < 16)%nat -> W d n = be_val (firstn 4 (skipn (4 * n) (d_bytes d))).
Proof.
  intros H Hn. pose proof H as (_ & HL & _). unfold W, sched. rewrite schedule_prefix by (rewrite words_len by exact H; lia).
  unfold sha_words. change 0 with (be_val []) at 1. rewrite map_nth. rewrite nth_pieces by lia. reflexivity.
Qed.
Lemma be_val_bound l : Forall (fun x => 0 <= x < 256) l -> 0 <= be_val l < 256 ^ Z.of_nat (length l).
Proof.
  intros H. induction l as [|x l IH] using rev_ind; [cbn; lia|]. apply Forall_app in H. destruct H as [H1 H2].
  apply Forall_cons_iff in H2. destruct H2 as [H2 _]. specialize (IH H1). rewrite be_val_snoc, app_length. cbn [length].
  rewrite Nat.add_1_r, Nat2Z.inj_succ, Z.pow_succ_r by lia. lia.
Qed.
Lemma W_rec d n : dok d -> (16 <= n < 64)%nat -> W d n = wext d n mod 2 ^ 32.
Proof.
  intros H Hn. unfold wext. rewrite (proj2 (Nat.ltb_ge _ _)) by lia.
  assert (L := words_len d H). unfold W, sched. revert L. generalize (sha_words (d_bytes d)). intros l L.
  assert (B1 : (16 <= length l)%nat) by (rewrite L; lia). assert (B2 : (length l <= n < length l + 48)%nat) by (rewrite L; lia).
  rewrite (schedule_nth 48 l n B1 B2) at 1. f_equal. generalize (schedule 48 l). intros s. ring.
Qed.
Lemma W_bound d n : dok d -> 0 <= W d n < 2 ^ 32.
Proof.
  intros H. destruct (Nat.lt_ge_cases n 16) as [L|L].
  - rewrite W_in by assumption. pose proof H as (_ & HL & HB).
    pose proof (be_val_bound (firstn 4 (skipn (4 * n) (d_bytes d)))) as B.
    rewrite firstn_length, skipn_length, HL in B. replace (Nat.min 4 (64 - 4 * n)) with 4%nat in B by lia.
    apply B. apply Forall_firstn', Forall_skipn', HB.
  - destruct (Nat.lt_ge_cases n 64) as [L2|L2]; [rewrite W_rec by (assumption || lia); apply Z.mod_pos_bound; lia|].
    unfold W. rewrite nth_overflow by (rewrite sched_len by exact H; lia). lia.
Qed.
Lemma wext_bound d n : dok d -> (n < 64)%nat -> 0 <= wext d n < 2 ^ 34.
Proof.
  intros H Hn. unfold wext. destruct (Nat.ltb_spec n 16); [pose proof (W_bound d n H); lia|].
  pose proof (W_bound d (n - 16) H). pose proof (W_bound d (n - 7) H). pose proof (s0_b _ (W_bound d (n - 15) H)). pose proof (s1_b _ (W_bound d (n - 2) H)). lia.
Qed.
Lemma W_ext d n : dok d -> (n < 64)%nat -> W d n = wext d n mod 2 ^ 32.
Proof.
  intros H Hn. destruct (Nat.lt_ge_cases n 16); [|apply W_rec; [assumption|lia]].
  unfold wext. rewrite (proj2 (Nat.ltb_lt _ _)) by assumption. symmetry. apply Z.mod_small. now apply W_bound.
Qed.
(** the rounds *)
Lemma St_S d n : dok d -> (n < 64)%nat -> St d (S n) = sha_round (St d n) (nth n sha_K 0, W d n).
Proof.
  intros H Hn. unfold St. assert (L : length (combine sha_K (sched d)) = 64%nat) by (rewrite combine_length, sched_len by exact H; reflexivity).
  assert (E : firstn (S n) (combine sha_K (sched d)) = firstn n (combine sha_K (sched d)) ++ [(nth n sha_K 0, W d n)]).
  { change (W d n) with (nth n (sched d) 0). rewrite <- (combine_nth sha_K (sched d) n 0 0) by (rewrite sched_len by exact H; reflexivity).
    set (l := combine sha_K (sched d)) in *. clearbody l. clear - L Hn. revert n L Hn. 
    assert (G : forall (l : list (Z * Z)) n, (n < length l)%nat -> firstn (S n) l = firstn n l ++ [nth n l (0, 0)]).
    { induction l0 as [|x l0 IH]; intros n Hn; [cbn [length] in Hn; lia|]. destruct n as [|n]; [reflexivity|].
      cbn [length] in Hn. cbn [nth]. change (firstn (S (S n)) (x :: l0)) with (x :: firstn (S n) l0). rewrite IH by lia. reflexivity. }
    intros n L Hn. apply G. lia. }
  rewrite E, fold_left_app. reflexivity.
Qed.
Lemma cstb n : 0 <= nth n sha_K 0 < 2 ^ 32.
Proof. rewrite K_eq. apply ShaRows.cst_bound. Qed.
Lemma St_bound d n : dok d -> (n <= 64)%nat -> hsb (St d n).
Proof.
  intros H. induction n as [|n IH]; intros Hn; [apply H|]. rewrite St_S by (assumption || lia).
  specialize (IH ltac:(lia)). destruct IH as [(A1 & A2 & A3 & A4) (E1 & E2 & E3 & E4)].
  unfold sha_round, hsb. cbn [ha hb hc hd he hf hg hh]. repeat split; try tauto; try lia; apply Z.mod_pos_bound; lia.
Qed.
Lemma t1_bound s k w : hsb s -> 0 <= k < 2 ^ 32 -> 0 <= w < 2 ^ 32 -> 0 <= t1 s k w <= 5 * (2 ^ 32 - 1).
Proof.
  intros [(A1 & A2 & A3 & A4) (E1 & E2 & E3 & E4)] Hk Hw. unfold t1. pose proof (S1_b _ E1). pose proof (Ch_b _ _ _ E1 E2 E3). lia.
Qed.
Lemma t2_bound s : hsb s -> 0 <= t2 s <= 2 * (2 ^ 32 - 1).
Proof.
  intros [(A1 & A2 & A3 & A4) (E1 & E2 & E3 & E4)]. unfold t2. pose proof (S0_b _ A1). pose proof (Maj_b _ _ _ A1 A2 A3). lia.
Qed.
Lemma St_a d n : dok d -> (n < 64)%nat -> ha (St d (S n)) = aext d n mod 2 ^ 32.
Proof. intros H Hn. rewrite St_S by assumption. unfold sha_round, aext, t1, t2. cbn [ha]. reflexivity. Qed.
Lemma St_e d n : dok d -> (n < 64)%nat -> he (St d (S n)) = eext d n mod 2 ^ 32.
Proof. intros H Hn. rewrite St_S by assumption. unfold sha_round, eext, t1. cbn [he]. reflexivity. Qed.

Local Opaque schedule W St.
Definition swst d n : wst := WSt (St d n) (map (W d) (seq 0 n)) (lenq d (Nat.min n 16)) (prevp d (Nat.min n 16)).
Lemma pad_flags_eq d q k : (k <= 4)%nat ->
  pad_flags k (Z.of_nat (d_n d)) (Z.of_nat (Nat.min (d_n d) (64 * d_idx d + 4 * q + (4 - k)))) =
  (map (fun k => (d_n d <=? 64 * d_idx d + 4 * q + k)%nat) (seq (4 - k) k), lenq d (S q)).
Proof.
  induction k as [|k IH]; intros Hk.
  - cbn [pad_flags seq map Nat.sub]. f_equal. unfold lenq. do 2 f_equal. lia.
  - cbn [pad_flags seq map]. specialize (IH ltac:(lia)). replace (S (4 - S k)) with (4 - k)%nat by lia.
    destruct (Nat.leb_spec (d_n d) (64 * d_idx d + 4 * q + (4 - S k))) as [G|G].
    + rewrite (proj2 (Z.eqb_eq _ _)) by lia. replace (Nat.min (d_n d) (64 * d_idx d + 4 * q + (4 - S k))) with (Nat.min (d_n d) (64 * d_idx d + 4 * q + (4 - k))) by lia.
      rewrite IH. reflexivity.
    + rewrite (proj2 (Z.eqb_neq _ _)) by lia.
      replace (Z.of_nat (Nat.min (d_n d) (64 * d_idx d + 4 * q + (4 - S k))) + 1) with (Z.of_nat (Nat.min (d_n d) (64 * d_idx d + 4 * q + (4 - k)))) by lia.
      rewrite IH. reflexivity.
Qed.
Lemma nthW d n k : (k < n)%nat -> nth k (map (W d) (seq 0 n)) 0 = W d k.
Proof.
  intros H. rewrite (nth_indep _ 0 (W d 0)) by (rewrite map_length, seq_length; exact H). rewrite map_nth, seq_nth by exact H. reflexivity.
Qed.
Lemma round_eq d n : dok d -> (n < 64)%nat ->
  round_row (Z.of_nat (d_n d)) (into_be_bits (d_bytes d)) n (nth n sha_K 0) (swst d n) = (drow d (4 + n), swst d (S n)).
Proof.
  intros H Hn. unfold round_row, swst. cbn [s_h s_ws s_len s_pad]. rewrite map_length, seq_length.
  destruct (St_bound d n H ltac:(lia)) as [(A1 & A2 & A3 & A4) (E1 & E2 & E3 & E4)].
  assert (EW : (if (n <? 16)%nat then bz (firstn 32 (skipn (32 * n) (into_be_bits (d_bytes d))))
    else low32 (nth (n - 16) (map (W d) (seq 0 n)) 0) +
         Z.lxor (Z.lxor (rotate_value (low32 (nth (n - 15) (map (W d) (seq 0 n)) 0)) 7) (rotate_value (low32 (nth (n - 15) (map (W d) (seq 0 n)) 0)) 18))
                (shift_value (low32 (nth (n - 15) (map (W d) (seq 0 n)) 0)) 3) +
         low32 (nth (n - 7) (map (W d) (seq 0 n)) 0) +
         Z.lxor (Z.lxor (rotate_value (low32 (nth (n - 2) (map (W d) (seq 0 n)) 0)) 17) (rotate_value (low32 (nth (n - 2) (map (W d) (seq 0 n)) 0)) 19))
                (shift_value (low32 (nth (n - 2) (map (W d) (seq 0 n)) 0)) 10)) = wext d n).
  { unfold wext. destruct (Nat.ltb_spec n 16).
    - replace (32 * n)%nat with (8 * (4 * n))%nat by lia. rewrite skipn_into. change 32%nat with (8 * 4)%nat. rewrite firstn_into.
      rewrite bz_into by (destruct H as (_ & _ & HB); apply Forall_firstn', Forall_skipn', HB). symmetry. now apply W_in.
    - rewrite !nthW by lia. rewrite !(low32_small (W d _)) by now apply W_bound. unfold rotate_value, shift_value.
      rewrite !(low32_small (W d _)) by now apply W_bound. unfold sigma0, sigma1. reflexivity. }
  assert (EP : (if (n <? 16)%nat then pad_flags 4 (Z.of_nat (d_n d)) (lenq d (Nat.min n 16)) else ([false; false; false; false], lenq d (Nat.min n 16)))
     = (d_pads d (4 + n), lenq d (Nat.min (S n) 16))).
  { unfold d_pads. rewrite (proj2 (Nat.ltb_ge (4 + n) 4)) by lia. destruct (Nat.ltb_spec n 16) as [L|L].
    - rewrite (proj2 (Nat.ltb_lt (4 + n) 20)) by lia. rewrite Nat.min_l by lia. pose proof (pad_flags_eq d n 4 ltac:(lia)) as PF.
      rewrite Nat.sub_diag, Nat.add_0_r in PF. unfold lenq at 1. rewrite PF. unfold pads. replace (4 + n - 4)%nat with n by lia.
      rewrite Nat.min_l by lia. reflexivity.
    - rewrite (proj2 (Nat.ltb_ge (4 + n) 20)), (proj2 (Nat.eqb_neq (4 + n) 71)) by lia. rewrite !Nat.min_r by lia. reflexivity. }
  rewrite EP. cbv zeta. cbn beta iota. rewrite EW. clear EW EP.
  assert (EPd : (if (n <? 16)%nat then last (d_pads d (4 + n)) false else prevp d (Nat.min n 16)) = prevp d (Nat.min (S n) 16)).
  { unfold d_pads. rewrite (proj2 (Nat.ltb_ge (4 + n) 4)) by lia. destruct (Nat.ltb_spec n 16) as [L|L].
    - rewrite (proj2 (Nat.ltb_lt (4 + n) 20)) by lia. rewrite Nat.min_l by lia. unfold pads, prevp. cbn [seq map last].
      replace (4 + n - 4)%nat with n by lia. apply Bool.eq_iff_eq_true. rewrite Nat.leb_le, Nat.ltb_lt. lia.
    - rewrite !Nat.min_r by lia. reflexivity. }
  rewrite EPd. clear EPd.
  assert (EWl : low32 (wext d n) = W d n) by (rewrite low32_mod; symmetry; now apply W_ext). rewrite EWl.
  assert (ES : map (W d) (seq 0 n) ++ [W d n] = map (W d) (seq 0 (S n))) by (rewrite seq_S, map_app; reflexivity). rewrite ES.
  rewrite (St_S d n H Hn). unfold drow.
  assert (Hd : d_final d (4 + n) = false).
  { unfold d_final. rewrite (proj2 (Nat.ltb_ge (4 + n) 4)), (proj2 (Nat.eqb_neq (4 + n) 71)) by lia. reflexivity. }
  assert (Hl : d_len d (4 + n) = if (n <? 16)%nat then lenq d (Nat.min (S n) 16) else 0).
  { unfold d_len. rewrite (proj2 (Nat.ltb_ge (4 + n) 4)), (proj2 (Nat.eqb_neq (4 + n) 71)) by lia.
    destruct (Nat.ltb_spec n 16); destruct (Nat.ltb_spec (4 + n) 20); try lia. f_equal. lia. }
  assert (Hli : d_limb d (4 + n) = 0).
  { unfold d_limb. rewrite (proj2 (Nat.eqb_neq (4 + n) 71)), (proj2 (Nat.eqb_neq (4 + n) 70)) by lia. reflexivity. }
  assert (Hi : d_input (4 + n) = (n <? 16)%nat).
  { unfold d_input. rewrite (proj2 (Nat.leb_le 4 (4 + n))) by lia. cbn [andb]. destruct (Nat.ltb_spec n 16); destruct (Nat.ltb_spec (4 + n) 20); lia || reflexivity. }
  rewrite Hd, Hl, Hli, Hi. clear Hd Hl Hli Hi.
  assert (HR : forall k f, (if (4 + n <? 4)%nat then k else if (4 + n <? 68)%nat then f (4 + n - 4)%nat else 0) = f n :> Z).
  { intros k f. rewrite (proj2 (Nat.ltb_ge (4 + n) 4)), (proj2 (Nat.ltb_lt (4 + n) 68)) by lia. f_equal. lia. }
  assert (Hw : wv d (4 + n) = wext d n) by (unfold wv; apply HR).
  assert (Ha : av d (4 + n) = aext d n).
  { unfold av. rewrite (proj2 (Nat.ltb_ge (4 + n) 4)), (proj2 (Nat.ltb_lt (4 + n) 68)) by lia. f_equal. lia. }
  assert (He : ev d (4 + n) = eext d n).
  { unfold ev. rewrite (proj2 (Nat.ltb_ge (4 + n) 4)), (proj2 (Nat.ltb_lt (4 + n) 68)) by lia. f_equal. lia. }
  rewrite Hw, Ha, He. clear Hw Ha He HR. unfold aext, eext, t1, t2.
  destruct (St d n) as [a b c dd e f g h]. cbn [ha hb hc hd he hf hg hh sha_round] in *.
  unfold rotate_value. rewrite !(low32_small e) by exact E1. rewrite !(low32_small a) by exact A1.
  fold (Sigma0 a) (Sigma1 e) (Ch e f g) (Maj a b c). rewrite !low32_mod. reflexivity.
Qed.
Lemma rounds_eq d k : forall n, dok d -> (n + k = 64)%nat ->
  rounds (Z.of_nat (d_n d)) (into_be_bits (d_bytes d)) n (skipn n sha_K) (swst d n) =
  (map (fun m => drow d (4 + m)) (seq n k), swst d 64).
Proof.
  induction k as [|k IH]; intros n H Hn.
  - replace n with 64%nat by lia. reflexivity.
  - assert (E : skipn n sha_K = nth n sha_K 0 :: skipn (S n) sha_K).
    { assert (L : (n < length sha_K)%nat) by (change (length sha_K) with 64%nat; lia). clear - L. revert L. generalize sha_K. intros l. revert n.
      induction l as [|x l IH]; intros n L; [cbn [length] in L; lia|]. destruct n; [reflexivity|]. cbn [skipn nth]. apply IH. cbn [length] in L. lia. }
    rewrite E. cbn [rounds]. rewrite round_eq by (assumption || lia). rewrite IH by (assumption || lia). reflexivity.
Qed.
Lemma block_eq' d : dok d ->
  block_rows (Z.of_nat (d_n d)) (d_idx d =? 0)%nat (d_fin d) (into_be_bits (d_bytes d)) (d_hs d) (lenq d 0) (prevp d 0) =
  (map (drow d) (seq 0 72), (hs_out d, lenq d 16, prevp d 16)).
Proof.
  intros H. unfold block_rows. rewrite <- K_eq.
  pose proof (rounds_eq d 64 0 H eq_refl) as R. change (skipn 0 sha_K) with sha_K in R.
  change (swst d 0) with (WSt (d_hs d) [] (lenq d 0) (prevp d 0)) in R. rewrite R. clear R.
  cbn [s_h s_len s_pad swst Nat.min]. change (Nat.min 64 16) with 16%nat.
  assert (ER : map (drow d) (seq 0 72) = map (drow d) (seq 0 4) ++ map (fun m => drow d (4 + m)) (seq 0 64) ++ map (drow d) (seq 68 4)).
  { change 72%nat with (4 + (64 + 4))%nat. rewrite seq_app, map_app. apply f_equal2; [reflexivity|].
    rewrite seq_app, map_app. reflexivity. }
  rewrite ER. clear ER. cbv zeta.
  assert (EH : (if d_fin d then flat_map (fun h => be_bytes 4 (low32 h))
      [ha (d_hs d) + ha (St d 64); hb (d_hs d) + hb (St d 64); hc (d_hs d) + hc (St d 64); hd (d_hs d) + hd (St d 64);
       he (d_hs d) + he (St d 64); hf (d_hs d) + hf (St d 64); hg (d_hs d) + hg (St d 64); hh (d_hs d) + hh (St d 64)] else repeat 0 32) = d_hash d).
  { unfold d_hash. destruct (d_fin d); [|reflexivity]. unfold hs_bytes, hs_out, hs_add. cbn [ha hb hc hd he hf hg hh flat_map]. now rewrite !low32_mod. }
  rewrite EH. rewrite !low32_mod. apply f_equal2; [|reflexivity]. apply f_equal2; [reflexivity|]. apply f_equal2; [reflexivity|].
  reflexivity.
Qed.
