(** From the rows of a chain of SHA-256 blocks to the padded message they contain and its digest. *)
From Coq Require Import ZArith Lia List Bool Ring Znumtheory.
From Verif Require Import Field Spec ShaSpec ShaCircuit ShaBits ShaEval ShaRows ShaBlock ShaPad.
Import ListNotations.
Local Open Scope Z_scope.

(** * Lists *)
Lemma threshold (f : nat -> bool) N : (forall k, (S k < N)%nat -> f k = true -> f (S k) = true) ->
  exists L, (L <= N)%nat /\ forall k, (k < N)%nat -> f k = (L <=? k)%nat.
Proof.
  induction N as [|N IH]; intros H.
  - exists 0%nat. split; [lia|]. intros. lia.
  - destruct IH as (L & HL & HT); [intros k Hk; apply H; lia|].
    destruct (Nat.eq_dec L N) as [->|Hn].
    + destruct (f N) eqn:E.
      * exists N. split; [lia|]. intros k Hk. destruct (Nat.eq_dec k N) as [->|]; [rewrite E, Nat.leb_refl; reflexivity|apply HT; lia].
      * exists (S N). split; [lia|]. intros k Hk. destruct (Nat.eq_dec k N) as [->|].
        -- rewrite E. symmetry. apply Nat.leb_gt. lia.
        -- rewrite HT by lia. rewrite !(proj2 (Nat.leb_gt _ _)) by lia. reflexivity.
    + exists L. split; [lia|]. intros k Hk. destruct (Nat.eq_dec k N) as [->|]; [|apply HT; lia].
      rewrite (proj2 (Nat.leb_le _ _)) by lia. destruct N as [|N]; [lia|]. apply H; [lia|]. rewrite HT by lia. apply Nat.leb_le. lia.
Qed.
Lemma seq_shift_map {A} (g : nat -> A) s n : map g (seq s n) = map (fun k => g (s + k)%nat) (seq 0 n).
Proof.
  revert s. induction n as [|n IH]; intros s; [reflexivity|]. cbn [seq map]. rewrite Nat.add_0_r. f_equal.
  rewrite IH, <- seq_shift, map_map. apply map_ext. intros. f_equal. lia.
Qed.
Lemma pieces_seq {A} (g : nat -> A) m n : (0 < m)%nat -> forall fuel s, (n <= fuel)%nat ->
  pieces fuel m (map g (seq s (m * n))) = map (fun b => map g (seq (s + m * b) m)) (seq 0 n).
Proof.
  intros Hm. induction n as [|n IH]; intros fuel s Hf.
  - rewrite Nat.mul_0_r. destruct fuel; reflexivity.
  - destruct fuel as [|fuel]; [lia|]. replace (m * S n)%nat with (m + m * n)%nat by lia. rewrite seq_app, map_app.
    assert (L : length (map g (seq s m)) = m) by now rewrite map_length, seq_length.
    cbn [pieces]. destruct (map g (seq s m) ++ map g (seq (s + m) (m * n))) eqn:E.
    + apply (f_equal (@length A)) in E. rewrite app_length, L in E. simpl in E. lia.
    + rewrite <- E. rewrite firstn_app, skipn_app, L, Nat.sub_diag. cbn [firstn skipn]. rewrite app_nil_r.
      rewrite firstn_all2, skipn_all2 by lia. cbn [app seq map]. rewrite Nat.mul_0_r, Nat.add_0_r. f_equal.
      rewrite IH by lia. rewrite <- seq_shift, map_map. apply map_ext. intros b. do 2 f_equal. lia.
Qed.
Lemma be_bytes_app m n : forall v, 0 <= v -> be_bytes (m + n) v = be_bytes m (v / 256 ^ Z.of_nat n) ++ be_bytes n v.
Proof.
  induction n as [|n IH]; intros v Hv.
  - rewrite Nat.add_0_r. cbn [be_bytes]. rewrite app_nil_r. change (256 ^ Z.of_nat 0) with 1. now rewrite Z.div_1_r.
  - rewrite Nat.add_succ_r. cbn [be_bytes]. rewrite IH by (apply Z.div_pos; lia). rewrite <- app_assoc. do 2 f_equal.
    rewrite Z.div_div by lia. f_equal. rewrite Nat2Z.inj_succ, Z.pow_succ_r by lia. reflexivity.
Qed.
Lemma be_bytes_zero m : be_bytes m 0 = repeat 0 m.
Proof.
  induction m as [|m IH]; [reflexivity|]. cbn [be_bytes]. rewrite Z.div_0_l by lia. rewrite IH, Z.mod_0_l by lia.
  rewrite <- (repeat_cons m 0). reflexivity.
Qed.
Lemma map_const {A B} (f : A -> B) c l : (forall x, In x l -> f x = c) -> map f l = repeat c (length l).
Proof. induction l as [|x l IH]; intros H; [reflexivity|]. cbn [map length repeat]. rewrite H by now left. rewrite IH by (intros; apply H; now right). reflexivity. Qed.
Lemma divmod64 b k : (k < 64)%nat -> ((64 * b + k) mod 64 = k /\ (64 * b + k) / 64 = b)%nat.
Proof.
  intros Hk. split.
  - rewrite (Nat.add_comm (64 * b)), (Nat.mul_comm 64 b), Nat.mod_add by lia. apply Nat.mod_small. lia.
  - rewrite (Nat.add_comm (64 * b)), (Nat.mul_comm 64 b), Nat.div_add by lia. rewrite Nat.div_small by lia. lia.
Qed.
Lemma bz32 l : length l = 32%nat -> 0 <= bz l < 2 ^ 32.
Proof. intros H. pose proof (bz_bound l) as B. rewrite H in B. exact B. Qed.

Section Msg.
Context {p : positive}.
Notation Fp := (F p).
Notation P := (Z.pos p).
Add Ring Fring : (F_ring p) (morphism (F_morph p), constants [Fcst]).
Hypothesis Hp : prime P.
Hypothesis Hbig : 2 ^ 40 < P.
Variable t : table p.
Variable nb : Z.
Hypothesis Hrows : SHA_ROWS * nb <= rows t.
Hypothesis HF : fixed_assigned t nb.
Hypothesis HSat : satisfies t sha_gates.
Hypothesis Hlen : 512 * nb < P.
Variable i0 : Z.
Variable n : nat.
Hypothesis Hi0 : 0 <= i0.
Hypothesis Hn : (0 < n)%nat.
Hypothesis Hend : i0 + Z.of_nat n <= nb.
Hypothesis Hfresh : fresh t i0 = true.
Hypothesis Hmid : forall b, (S b < n)%nat -> fin t (i0 + Z.of_nat b) = false.
Hypothesis Hlast : fin t (i0 + Z.of_nat (n - 1)) = true.

Definition gbyte (k : nat) : Z := byte t (i0 + Z.of_nat (k / 64)) (k mod 64).
Definition gpad (k : nat) : bool := pad t (i0 + Z.of_nat (k / 64)) (k mod 64).
Definition gprev (k : nat) : bool := match k with O => false | S k => gpad k end.
Lemma gsplit k : (k < 64 * n)%nat -> exists b q, k = (64 * b + q)%nat /\ (q < 64)%nat /\ (b < n)%nat /\ (k / 64 = b)%nat /\ (k mod 64 = q)%nat.
Proof.
  intros H. exists (k / 64)%nat, (k mod 64)%nat. split; [apply Nat.div_mod; lia|]. split; [apply Nat.mod_upper_bound; lia|].
  split; [apply Nat.div_lt_upper_bound; lia|]. split; reflexivity.
Qed.
Lemma nfresh b : (S b < n)%nat -> fresh t (i0 + Z.of_nat (S b)) = false.
Proof.
  intros H. unfold fresh. rewrite (proj2 (Z.eqb_neq _ _)) by lia. cbn [orb].
  replace (i0 + Z.of_nat (S b) - 1) with (i0 + Z.of_nat b) by lia. now apply Hmid.
Qed.
Lemma gprev_eq k : (k < 64 * n)%nat -> prevpad t (i0 + Z.of_nat (k / 64)) (k mod 64) = gprev k.
Proof.
  intros H. destruct (gsplit k H) as (b & q & -> & Hq & Hb & -> & ->). destruct q as [|q].
  - cbn [prevpad]. destruct b as [|b].
    + change (Z.of_nat 0) with 0. rewrite Z.add_0_r, Hfresh. reflexivity.
    + rewrite nfresh by lia. replace (64 * S b + 0)%nat with (S (64 * b + 63)) by lia. cbn [gprev]. unfold gpad.
      destruct (divmod64 b 63 ltac:(lia)) as [-> ->]. f_equal. lia.
  - cbn [prevpad]. rewrite Nat.add_succ_r. cbn [gprev]. unfold gpad. destruct (divmod64 b q ltac:(lia)) as [-> ->]. reflexivity.
Qed.
Lemma gblock k : (k < 64 * n)%nat -> 0 <= i0 + Z.of_nat (k / 64) < nb /\ (k mod 64 < 64)%nat.
Proof. intros H. destruct (gsplit k H) as (b & q & -> & Hq & Hb & -> & ->). lia. Qed.
Lemma gmono k : (S k < 64 * n)%nat -> gpad k = true -> gpad (S k) = true.
Proof.
  intros H HP. destruct (gblock (S k) H) as [B1 B2].
  apply (pad_mono Hp Hbig t nb Hrows HF HSat); [exact B1|exact B2|]. rewrite gprev_eq by exact H. exact HP.
Qed.
Lemma glength : exists L, (64 * n < L + 73)%nat /\ (L + 9 <= 64 * n)%nat /\ forall k, (k < 64 * n)%nat -> gpad k = (L <=? k)%nat.
Proof.
  destruct (threshold gpad (64 * n) gmono) as (L & HL & HT). exists L. split; [|split; [|exact HT]].
  - destruct n as [|[|n']]; [lia|lia|]. pose proof (Hmid n' ltac:(lia)) as M. unfold fin in M.
    assert (E : gpad (64 * n' + 55) = false) by (unfold gpad; destruct (divmod64 n' 55 ltac:(lia)) as [-> ->]; exact M).
    rewrite HT in E by lia. apply Nat.leb_gt in E. lia.
  - assert (E : gpad (64 * (n - 1) + 55) = true) by (unfold gpad; destruct (divmod64 (n - 1) 55 ltac:(lia)) as [-> ->]; exact Hlast).
    rewrite HT in E by lia. apply Nat.leb_le in E. lia.
Qed.

Section Threshold.
Variable L : nat.
Hypothesis HL1 : (64 * n < L + 73)%nat.
Hypothesis HL2 : (L + 9 <= 64 * n)%nat.
Hypothesis HT : forall k, (k < 64 * n)%nat -> gpad k = (L <=? k)%nat.

Lemma padT b k : (b < n)%nat -> (k < 64)%nat -> pad t (i0 + Z.of_nat b) k = (L <=? 64 * b + k)%nat.
Proof.
  intros Hb Hk. rewrite <- HT by lia. unfold gpad. destruct (divmod64 b k Hk) as [-> ->]. reflexivity.
Qed.
(** the length column counts the bytes that are not padding *)
Lemma len_step b q : (b < n)%nat -> (q < 16)%nat ->
  nz4 t (i0 + Z.of_nat b) q = Z.of_nat (Nat.min L (64 * b + 4 * S q)) - Z.of_nat (Nat.min L (64 * b + 4 * q)).
Proof.
  intros Hb Hq. unfold nz4. rewrite !padT by lia. unfold b2z, negb.
  destruct (Nat.leb_spec L (64 * b + 4 * q)), (Nat.leb_spec L (64 * b + (4 * q + 1))), (Nat.leb_spec L (64 * b + (4 * q + 2))),
    (Nat.leb_spec L (64 * b + (4 * q + 3))); lia.
Qed.
Lemma len_in b q : (b < n)%nat -> (q <= 16)%nat ->
  advc t CLen (row (i0 + Z.of_nat b) 3) = of_Z p (Z.of_nat (Nat.min L (64 * b))) ->
  advc t CLen (row (i0 + Z.of_nat b) (3 + Z.of_nat q)) = of_Z p (Z.of_nat (Nat.min L (64 * b + 4 * q))).
Proof.
  intros Hb Hq H0. induction q as [|q IH]; [rewrite Nat.mul_0_r, Nat.add_0_r; exact H0|].
  replace (3 + Z.of_nat (S q)) with (4 + Z.of_nat q) by lia.
  rewrite (length_row Hp t nb Hrows HF HSat) by lia.
  rewrite IH by lia. rewrite len_step by lia. rewrite <- of_Z_add. f_equal. lia.
Qed.
Lemma len_block b : (b < n)%nat -> advc t CLen (row (i0 + Z.of_nat b) 3) = of_Z p (Z.of_nat (Nat.min L (64 * b))).
Proof.
  induction b as [|b IH]; intros Hb; rewrite (cross_in Hp t nb Hrows HF HSat) by (auto; lia).
  - change (Z.of_nat 0) with 0. rewrite Z.add_0_r, Hfresh, Nat.min_0_r. reflexivity.
  - rewrite nfresh by lia. replace (i0 + Z.of_nat (S b) - 1) with (i0 + Z.of_nat b) by lia.
    change (row (i0 + Z.of_nat b) 19) with (row (i0 + Z.of_nat b) (3 + Z.of_nat 16)). rewrite len_in by (try (apply IH); lia).
    do 3 f_equal. lia.
Qed.
Lemma len_cell : advc t CLen (row (i0 + Z.of_nat (n - 1)) 19) = of_Z p (Z.of_nat L).
Proof.
  change (row (i0 + Z.of_nat (n - 1)) 19) with (row (i0 + Z.of_nat (n - 1)) (3 + Z.of_nat 16)).
  rewrite len_in by (try apply len_block; lia). do 3 f_equal. lia.
Qed.
(** the last word is the bit length *)
Lemma len_word : Wv t (row (i0 + Z.of_nat (n - 1)) 19) = 8 * Z.of_nat L.
Proof.
  assert (E := final_length Hp t nb Hrows HF HSat (i0 + Z.of_nat (n - 1)) ltac:(lia) Hlast).
  rewrite len_cell, <- of_Z_mul in E. apply (of_Z_inj (p:=p)) in E.
  - lia.
  - unfold Wv. pose proof (bz32 _ (Wb_len t (row (i0 + Z.of_nat (n - 1)) 19))). lia.
  - lia.
Qed.
Lemma len_bound : 8 * Z.of_nat L < 2 ^ 32.
Proof. rewrite <- len_word. unfold Wv. apply bz32, Wb_len. Qed.

Lemma gprevT k : (k < 64 * n)%nat -> gprev k = (L <? k)%nat.
Proof. destruct k as [|k]; intros Hk; [reflexivity|]. cbn [gprev]. rewrite HT by lia. reflexivity. Qed.
Lemma gbyte_pad k : (L <= k < 64 * n - 4)%nat -> gbyte k = if (L =? k)%nat then 128 else 0.
Proof.
  intros Hk. unfold gbyte. destruct (gblock k ltac:(lia)) as [B1 B2].
  rewrite (pad_byte Hp Hbig t nb Hrows HF HSat); [|exact B1|exact B2| |].
  - rewrite gprev_eq, gprevT by lia. destruct (Nat.ltb_spec L k), (Nat.eqb_spec L k); try lia; reflexivity.
  - change (gpad k = true). rewrite HT by lia. apply Nat.leb_le. lia.
  - destruct (gsplit k ltac:(lia)) as (b & q & -> & Hq & Hb & -> & ->). destruct (Nat.eq_dec b (n - 1)) as [->|]; [left; lia|].
    right. apply Hmid. lia.
Qed.
Lemma gbyte_last : map gbyte (seq (64 * n - 4) 4) = be_bytes 4 (8 * Z.of_nat L).
Proof.
  rewrite <- len_word. change (row (i0 + Z.of_nat (n - 1)) 19) with (row (i0 + Z.of_nat (n - 1)) (4 + Z.of_nat 15)).
  rewrite <- word_bytes. rewrite be_bytes_unique; [|reflexivity|repeat constructor; apply byte_bound].
  rewrite seq_shift_map. cbn [seq map].
  assert (G : forall k, (k < 4)%nat -> gbyte (64 * n - 4 + k) = byte t (i0 + Z.of_nat (n - 1)) (60 + k)).
  { intros k Hk. unfold gbyte. replace (64 * n - 4 + k)%nat with (64 * (n - 1) + (60 + k))%nat by lia.
    destruct (divmod64 (n - 1) (60 + k) ltac:(lia)) as [-> ->]. reflexivity. }
  rewrite !G by lia. reflexivity.
Qed.
Definition message : list Z := map gbyte (seq 0 L).
Lemma padded_eq : map gbyte (seq 0 (64 * n)) = sha_pad message.
Proof.
  unfold sha_pad, message. rewrite map_length, seq_length.
  replace (64 * n)%nat with (L + (1 + ((64 * n - 9 - L) + 4 + 4)))%nat by lia.
  rewrite seq_app, map_app. f_equal. rewrite seq_app, map_app. cbn [seq map plus]. rewrite gbyte_pad by lia.
  rewrite Nat.eqb_refl. cbn [app]. f_equal.
  assert (EM : (55 - Z.of_nat L) mod 64 = Z.of_nat (64 * n - 9 - L)).
  { replace (55 - Z.of_nat L) with (Z.of_nat (64 * n - 9 - L) + (1 - Z.of_nat n) * 64) by lia. rewrite Z.mod_add by lia.
    apply Z.mod_small. lia. }
  rewrite EM, Nat2Z.id. rewrite (be_bytes_app 4 4) by lia. change (256 ^ Z.of_nat 4) with (2 ^ 32).
  rewrite Z.div_small by (pose proof len_bound; lia). rewrite be_bytes_zero, app_assoc, <- repeat_app.
  rewrite seq_app, map_app. f_equal.
  - rewrite <- (seq_length (64 * n - 9 - L + 4) (L + 1)) at 2. apply map_const. intros k Hk. apply in_seq in Hk.
    rewrite gbyte_pad by lia. rewrite (proj2 (Nat.eqb_neq _ _)) by lia. reflexivity.
  - rewrite <- gbyte_last. f_equal. f_equal. lia.
Qed.
Lemma block_eq b : (b < n)%nat -> sha_words (map gbyte (seq (64 * b) 64)) = block_words t (i0 + Z.of_nat b).
Proof.
  intros Hb. unfold sha_words, block_words. change 64%nat with (4 * 16)%nat at 2. rewrite pieces_seq by lia. rewrite map_map.
  apply map_ext_in. intros q Hq. apply in_seq in Hq. rewrite <- word_bytes. rewrite seq_shift_map. cbn [seq map].
  assert (G : forall k, (k < 4)%nat -> gbyte (64 * b + 4 * q + k) = byte t (i0 + Z.of_nat b) (4 * q + k)).
  { intros k Hk. unfold gbyte. replace (64 * b + 4 * q + k)%nat with (64 * b + (4 * q + k))%nat by lia.
    destruct (divmod64 b (4 * q + k) ltac:(lia)) as [-> ->]. reflexivity. }
  rewrite !G by lia. rewrite Nat.add_0_r. reflexivity.
Qed.
Lemma blocks_eq : sha_blocks (sha_pad message) = map (fun b => block_words t (i0 + Z.of_nat b)) (seq 0 n).
Proof.
  rewrite <- padded_eq. unfold sha_blocks. rewrite map_length, seq_length, pieces_seq by lia. rewrite map_map.
  apply map_ext_in. intros b Hb. apply in_seq in Hb. apply block_eq. lia.
Qed.
Lemma chain_eq m : (m < n)%nat ->
  fold_left sha_block (map (fun b => block_words t (i0 + Z.of_nat b)) (seq 0 (S m))) sha_H0 = st_out t (i0 + Z.of_nat m).
Proof.
  induction m as [|m IH]; intros Hm.
  - cbn [seq map fold_left]. change (Z.of_nat 0) with 0. rewrite !Z.add_0_r. rewrite (block_ok Hp Hbig t nb Hrows HF HSat) by lia.
    f_equal. symmetry. apply (start_fresh Hp Hbig t nb Hrows HF HSat); [lia|]. intros i Hi.
    rewrite (start_cell Hp t nb Hrows HF HSat) by lia. rewrite Hfresh. reflexivity.
  - rewrite seq_S, map_app, fold_left_app, IH by lia. cbn [map fold_left plus]. rewrite (block_ok Hp Hbig t nb Hrows HF HSat (i0 + Z.of_nat (S m))) by lia.
    f_equal. symmetry. replace (i0 + Z.of_nat m) with (i0 + Z.of_nat (S m) - 1) by lia.
    apply (start_chain Hp Hbig t nb Hrows HF HSat); [lia|]. intros i Hi.
    rewrite (start_cell Hp t nb Hrows HF HSat) by lia. rewrite nfresh by lia. reflexivity.
Qed.
Lemma digest_eq : hs_bytes (st_out t (i0 + Z.of_nat (n - 1))) = sha256 message.
Proof.
  unfold sha256. rewrite blocks_eq. replace n with (S (n - 1)) at 2 by lia. rewrite chain_eq by lia. reflexivity.
Qed.
(** the words handed to the caller *)
Lemma masked_eq b k : (b < n)%nat -> (k < 64)%nat -> masked t (i0 + Z.of_nat b) k = nth (64 * b + k) message 0.
Proof.
  intros Hb Hk. unfold masked. rewrite padT by lia. unfold message. destruct (Nat.leb_spec L (64 * b + k)).
  - rewrite nth_overflow; [reflexivity|]. rewrite map_length, seq_length. lia.
  - rewrite (nth_indep _ 0 (gbyte 0)) by (rewrite map_length, seq_length; lia). rewrite map_nth, seq_nth by lia.
    unfold gbyte. cbn [plus]. destruct (divmod64 b k Hk) as [-> ->]. reflexivity.
Qed.
Lemma message_len : length message = L. Proof. unfold message. now rewrite map_length, seq_length. Qed.
Lemma message_bytes : Forall (fun x => 0 <= x < 256) message.
Proof. apply Forall_forall. intros x Hx. apply in_map_iff in Hx. destruct Hx as (k & <- & _). apply byte_bound. Qed.
End Threshold.
End Msg.
