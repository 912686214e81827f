(** The arithmetic of the lookup keys: the code that packs words computes the specified elements. *)
From Coq Require Import ZArith Lia List Bool Arith Ring.
From Verif Require Import Field Spec Context ContextProofs Utils Logic Gate GateProofs Range SafeTypes PoseidonMds PoseidonOpt PoseidonChip KecSpec KeySpec KecCircuit KecClaim KecComp SafeProofs2.
Import ListNotations.
Local Open Scope nat_scope.

(** ** lists *)
Lemma nth_firstn' {A} (l : list A) n i d : i < n -> nth i (firstn n l) d = nth i l d.
Proof. revert n i. induction l as [|x l IH]; intros [|n] [|i] H; cbn; auto; try lia. apply IH. lia. Qed.
Lemma nth_skipn' {A} (l : list A) n i d : nth i (skipn n l) d = nth (n + i) l d.
Proof. revert l. induction n; intros [|x l]; cbn; auto. now destruct i. Qed.
Lemma nth_repeat' {A} (x : A) n i : nth i (repeat x n) x = x.
Proof. revert i. induction n; intros [|i]; cbn; auto. Qed.
Lemma nth_map_seq {A} (f : nat -> A) n i d : i < n -> nth i (map f (seq 0 n)) d = f i.
Proof. intros H. rewrite (nth_indep _ _ (f 0)) by (rewrite map_length, seq_length; lia). rewrite map_nth, seq_nth by lia. f_equal. Qed.
Lemma buffer_nth {A} n (x : A) l i : nth i (buffer n x l) x = nth i l x.
Proof.
  unfold buffer. destruct (Nat.lt_ge_cases i (length l)).
  - now rewrite app_nth1.
  - rewrite app_nth2 by lia. rewrite nth_repeat'. now rewrite nth_overflow by lia.
Qed.
Lemma buffer_length {A} n (x : A) l : length l <= n -> length (buffer n x l) = n.
Proof. intros. unfold buffer. rewrite app_length, repeat_length. lia. Qed.
Lemma buffer_map {A B} (f : A -> B) n x l : map f (buffer n x l) = buffer n (f x) (map f l).
Proof. unfold buffer. rewrite map_app, map_length. f_equal. remember (n - length l) as k. clear. induction k; cbn; congruence. Qed.
Lemma enumerate_map {A B} (f : A -> B) l : enumerate (map f l) = map (fun ic => (fst ic, f (snd ic))) (enumerate l).
Proof.
  unfold enumerate. rewrite map_length. generalize (seq 0 (length l)). induction l; intros [|i s]; cbn; auto. f_equal. auto.
Qed.
Lemma combine_map_seq {A} (f : nat -> A) n : forall s, combine (seq s n) (map f (seq s n)) = map (fun i => (i, f i)) (seq s n).
Proof. induction n; intros s; cbn; auto. now rewrite IHn. Qed.
Lemma enumerate_chunks {A} n (l : list A) : enumerate (chunks n l) = map (fun i => (i, firstn n (skipn (i * n) l))) (seq 0 (ceil_div (length l) n)).
Proof. unfold enumerate. rewrite chunks_len. unfold chunks. apply combine_map_seq. Qed.
Lemma skipn_plus {A} i j (l : list A) : skipn i (skipn j l) = skipn (j + i) l.
Proof. revert l. induction j; intros [|x l]; cbn; auto. now destruct i. Qed.
Lemma concat_chunks {A} n (l : list A) : 0 < n -> concat (chunks n l) = l.
Proof.
  intros Hn. unfold chunks. enough (forall k i, i * n + k * n >= length l -> concat (map (fun i => firstn n (skipn (i * n) l)) (seq i k)) = skipn (i * n) l) as H.
  - rewrite (H _ 0); auto. cbn [Nat.mul Nat.add]. unfold ceil_div. pose proof (Nat.div_mod (length l + n - 1) n ltac:(lia)).
    pose proof (Nat.mod_upper_bound (length l + n - 1) n ltac:(lia)). nia.
  - induction k as [|k IH]; intros i Hk; cbn [seq map concat].
    + now rewrite skipn_all2 by lia.
    + rewrite IH by lia. replace (S i * n) with (n + i * n) by lia. rewrite <- (firstn_skipn n (skipn (i * n) l)) at 2. f_equal.
      rewrite skipn_plus. f_equal. lia.
Qed.

(** ** words *)
Lemma le_bytes_app a b : le_bytes (a ++ b) = (le_bytes a + 256 ^ Z.of_nat (length a) * le_bytes b)%Z.
Proof.
  induction a as [|x a IH]; cbn [app le_bytes length].
  - change (256 ^ Z.of_nat 0)%Z with 1%Z. lia.
  - rewrite IH, Nat2Z.inj_succ, Z.pow_succ_r by lia. lia.
Qed.
Lemma le_bytes_zeros n : le_bytes (repeat 0%Z n) = 0%Z.
Proof. induction n; cbn [repeat le_bytes]; lia. Qed.
Lemma le_bytes_buffer n l : le_bytes (buffer n 0%Z l) = le_bytes l.
Proof. unfold buffer. rewrite le_bytes_app, le_bytes_zeros. lia. Qed.
Lemma le_bytes_nil_chunk l i : length l <= 8 * i -> le_bytes (firstn 8 (skipn (8 * i) l)) = 0%Z.
Proof. intros. rewrite skipn_all2 by lia. reflexivity. Qed.
(** the word at index [w] of the code's list of words *)
Definition word_at (msg : list Z) (w : nat) : Z := le_bytes (firstn 8 (skipn (8 * w) msg)).
Lemma word_chunks msg w : nth w (map le_bytes (chunks 8 msg)) 0%Z = word_at msg w.
Proof.
  unfold word_at. destruct (Nat.lt_ge_cases w (ceil_div (length msg) 8)).
  - unfold chunks. rewrite map_map, nth_map_seq by auto. now rewrite Nat.mul_comm.
  - rewrite nth_overflow by (rewrite map_length, chunks_len; lia). rewrite le_bytes_nil_chunk; auto.
    unfold ceil_div in *. pose proof (Nat.div_mod (length msg + 8 - 1) 8 ltac:(lia)). pose proof (Nat.mod_upper_bound (length msg + 8 - 1) 8 ltac:(lia)). lia.
Qed.
Lemma le_bytes_zero_pad k : forall n l, le_bytes (firstn n (l ++ repeat 0%Z k)) = le_bytes (firstn n l).
Proof.
  intros n l. rewrite firstn_app. rewrite le_bytes_app. enough (le_bytes (firstn (n - length l) (repeat 0%Z k)) = 0%Z) by lia.
  generalize (n - length l). clear. intros m. revert m. induction k; intros [|m]; cbn [repeat firstn le_bytes]; auto. rewrite IHk. lia.
Qed.
Lemma word_at_pad msg k w : word_at (msg ++ repeat 0%Z k) w = word_at msg w.
Proof.
  unfold word_at. rewrite skipn_app. assert (E : skipn (8 * w - length msg) (repeat 0%Z k) = repeat 0%Z (k - (8 * w - length msg))).
  { generalize (8 * w - length msg). clear. intros m. revert m. induction k; intros [|m]; cbn; auto. }
  rewrite E. apply le_bytes_zero_pad.
Qed.
Lemma key_words_nth msg b t : t < 17 -> nth (S t) (key_words msg b) 0%Z = word_at msg (17 * b + t).
Proof. intros H. unfold key_words, word_at. cbn [nth]. rewrite nth_map_seq by auto. do 3 f_equal. lia. Qed.
Lemma key_words_length msg b : length (key_words msg b) = 18.
Proof. unfold key_words. cbn [length]. now rewrite map_length, seq_length. Qed.

(** the buffers of the code, from a list of words that holds those of the message and then zeros *)
Lemma block_words msg W b : (forall w, nth w W 0%Z = word_at msg w) ->
  (if b =? 0 then Z.of_nat (length msg) else 0%Z) :: buffer 17 0%Z (firstn 17 (skipn (b * 17) W)) = key_words msg b.
Proof.
  intros HW. unfold key_words. f_equal. apply nth_ext with (d := 0%Z) (d' := 0%Z).
  - rewrite map_length, seq_length. apply buffer_length. rewrite firstn_length. lia.
  - rewrite buffer_length by (rewrite firstn_length; lia). intros n Hn. rewrite buffer_nth, nth_firstn', nth_skipn', HW by lia.
    rewrite nth_map_seq by lia. unfold word_at. do 2 f_equal. f_equal. lia.
Qed.

Section KP.
Context {p : positive}.
Add Ring Fring : (F_ring p) (morphism (F_morph p), constants [Fcst]).
Notation Fp := (F p).

(** ** the multipliers *)
Lemma mult_loop_nth (base : Z) n : forall (m : Z) i, i < n -> nth i (mult_loop (of_Z p m) (of_Z p base) n) F0 = of_Z p (m * base ^ Z.of_nat (S i)).
Proof.
  induction n as [|n IH]; intros m i Hi; [lia|]. cbn [mult_loop]. rewrite <- of_Z_mul. destruct i as [|i]; cbn [nth].
  - now rewrite Z.pow_1_r.
  - rewrite IH by lia. f_equal. rewrite (Nat2Z.inj_succ (S i)), Z.pow_succ_r by lia. ring.
Qed.
Lemma mult_loop_length m base n : length (mult_loop (p:=p) m base n) = n.
Proof. revert m. induction n; intros; cbn; auto. Qed.
Lemma of_Z_1 : of_Z p 1 = F1.
Proof. reflexivity. Qed.
Lemma mults_nth (base : Z) n i : i < S n -> nth i (F1 :: mult_loop F1 (of_Z p base) n) F0 = of_Z p (base ^ Z.of_nat i).
Proof.
  intros Hi. destruct i as [|i]; [reflexivity|]. cbn [nth]. rewrite <- of_Z_1, mult_loop_nth by lia. f_equal. lia.
Qed.
Lemma mults_eq (base : Z) n : F1 :: mult_loop F1 (of_Z p base) n = map (fun i => of_Z p (base ^ Z.of_nat i)) (seq 0 (S n)).
Proof.
  apply nth_ext with (d := F0) (d' := F0).
  - cbn [length]. now rewrite mult_loop_length, map_length, seq_length.
  - cbn [length]. rewrite mult_loop_length. intros i Hi. rewrite mults_nth by lia. now rewrite nth_map_seq by lia.
Qed.

Lemma dot_pows_gen (f : nat -> Fp) (base : Z) (c : Z -> Z) : forall (ws : list Z) n s (acc : Z),
  length ws <= n ->
  (forall i, f i = of_Z p (base ^ Z.of_nat i)) ->
  dot (map (of_Z p) ws) (map f (seq s n)) = of_Z p (base ^ Z.of_nat s * fold_right (fun w a => w + base * a)%Z 0%Z ws).
Proof.
  induction ws as [|w ws IH]; intros n s acc Hl Hf; cbn [map fold_right].
  - cbn [dot]. rewrite Z.mul_0_r. destruct n; reflexivity.
  - destruct n as [|n]; [cbn in Hl; lia|]. cbn [seq map dot]. rewrite (IH n (S s) acc), Hf, <- of_Z_mul, <- of_Z_add by (auto; cbn in Hl; lia).
    f_equal. rewrite Nat2Z.inj_succ, Z.pow_succ_r by lia. ring.
Qed.
Lemma dot_pows (base : Z) ws n : length ws <= n -> dot (map (of_Z p) ws) (map (fun i => of_Z p (base ^ Z.of_nat i)) (seq 0 n)) =
  of_Z p (fold_right (fun w a => w + base * a)%Z 0%Z ws).
Proof. intros H. rewrite (dot_pows_gen (fun i => of_Z p (base ^ Z.of_nat i)) base (fun x => x) ws n 0 0%Z) by auto. f_equal. cbn [Z.of_nat]. rewrite Z.pow_0_r. lia. Qed.
Lemma le_bytes_fold l : fold_right (fun w a => w + 2 ^ 8 * a)%Z 0%Z l = le_bytes l.
Proof. induction l; cbn [fold_right le_bytes]; [auto|]. rewrite IHl. reflexivity. Qed.
Lemma undigits_fold l : fold_right (fun w a => w + 2 ^ 64 * a)%Z 0%Z l = undigits 64 l.
Proof. induction l; cbn [fold_right undigits]; [auto|]. rewrite IHl. reflexivity. Qed.

Definition nw : nat := num_word_per_witness (p:=p).
Lemma word_value (c : list Z) : length c <= 8 -> dot (map (of_Z p) c) (firstn (length c) (bytes_to_words_multipliers (p:=p))) = of_Z p (le_bytes c).
Proof.
  intros H. unfold bytes_to_words_multipliers. rewrite mults_eq, firstn_map.
  replace (firstn (length c) (seq 0 (S (8 - 1)))) with (seq 0 (length c)).
  - rewrite dot_pows by lia. now rewrite le_bytes_fold.
  - clear - H. remember (length c) as k. clear Heqk. do 9 (destruct k; [reflexivity|]). lia.
Qed.
Lemma witness_value (c : list Z) : length c <= nw -> dot (map (of_Z p) c) (words_to_witness_multipliers (p:=p)) = of_Z p (undigits 64 c).
Proof.
  intros H. unfold words_to_witness_multipliers. rewrite mults_eq. rewrite dot_pows by (unfold nw in H; lia). now rewrite undigits_fold.
Qed.
Lemma fold_dot (c : list Z) (ms : list Fp) acc : fold_left (fun acc wm => (acc + of_Z p (fst wm) * snd wm)%F) (combine c ms) acc = (acc + dot (map (of_Z p) c) ms)%F.
Proof.
  revert ms acc. induction c as [|w c IH]; intros [|m ms] acc; cbn [combine fold_left map dot]; try ring. rewrite IH. cbn [fst snd]. ring.
Qed.

(** the elements of a block *)
Lemma elements_eq (ws : list Z) : 0 < nw -> length ws = 18 ->
  map (fun c => dot (map (of_Z p) c) (words_to_witness_multipliers (p:=p))) (chunks nw ws) = key_elements p nw ws.
Proof.
  intros Hn Hl. unfold chunks, key_elements. rewrite map_map, Hl. apply map_ext. intros i.
  rewrite witness_value by (rewrite firstn_length; lia). now rewrite (Nat.mul_comm i nw).
Qed.
Lemma pair_pad (l : list Fp) : flat_map (buffer 2 F0) (chunks 2 l) = l ++ (if Nat.odd (length l) then [F0] else []).
Proof.
  assert (E : forall k (l : list Fp), length l <= k -> flat_map (buffer 2 F0) (chunks 2 l) = l ++ (if Nat.odd (length l) then [F0] else [])).
  { induction k as [|k IH]; intros l0 Hl.
    - destruct l0; [reflexivity|cbn in Hl; lia].
    - destruct l0 as [|x [|y l0]]; try reflexivity.
      assert (C : chunks 2 (x :: y :: l0) = [x; y] :: chunks 2 l0).
      { unfold chunks. cbn [length]. replace (ceil_div (S (S (length l0))) 2) with (S (ceil_div (length l0) 2)).
        - cbn [seq map]. f_equal. rewrite <- seq_shift, map_map. apply map_ext. intros i. reflexivity.
        - unfold ceil_div. replace (S (S (length l0)) + 2 - 1) with (length l0 + 2 - 1 + 1 * 2) by lia. rewrite Nat.div_add by lia. lia. }
      rewrite C. cbn [flat_map]. rewrite IH by (cbn in Hl; lia). cbn [length]. change (Nat.odd (S (S (length l0)))) with (Nat.odd (length l0)). reflexivity. }
  apply (E (length l)). auto.
Qed.
Lemma key_block_pad msg b : flat_map (buffer 2 F0) (chunks 2 (key_elements p nw (key_words msg b))) = key_block p nw msg b.
Proof. rewrite pair_pad. unfold key_block. f_equal. unfold key_elements. now rewrite map_length, seq_length. Qed.

(** ** the native encoding *)
Lemma native_words msg w : nth w (map (fun c => le_bytes (buffer 16 0%Z c)) (chunks 8 msg) ++ (if length msg mod 136 =? 0 then repeat 0%Z 17 else [])) 0%Z = word_at msg w.
Proof.
  rewrite (map_ext _ le_bytes) by (intros; apply le_bytes_buffer). rewrite <- word_chunks.
  destruct (Nat.lt_ge_cases w (length (map le_bytes (chunks 8 msg)))).
  - now rewrite app_nth1.
  - rewrite app_nth2 by auto. rewrite (nth_overflow (map le_bytes (chunks 8 msg))) by auto. destruct (_ =? 0); [apply nth_repeat'|now destruct (w - _)].
Qed.
Lemma native_blocks n : ceil_div (ceil_div n 8 + (if n mod 136 =? 0 then 17 else 0)) 17 = S (n / 136).
Proof.
  unfold ceil_div. pose proof (Nat.div_mod n 136 ltac:(lia)) as D. pose proof (Nat.mod_upper_bound n 136 ltac:(lia)) as B.
  remember (n / 136) as q. remember (n mod 136) as r. clear Heqq Heqr. subst n.
  replace (136 * q + r + 8 - 1) with ((r + 7) + (17 * q) * 8) by lia. rewrite Nat.div_add by lia.
  replace ((r + 7) / 8 + 17 * q + (if r =? 0 then 17 else 0) + 17 - 1) with (((r + 7) / 8 + (if r =? 0 then 17 else 0) + 16) + q * 17) by lia.
  rewrite Nat.div_add by lia. destruct (Nat.eqb_spec r 0) as [->|Hr]; [reflexivity|].
  pose proof (Nat.div_mod (r + 7) 8 ltac:(lia)). pose proof (Nat.mod_upper_bound (r + 7) 8 ltac:(lia)).
  assert (1 <= (r + 7) / 8 <= 17) by lia. replace (((r + 7) / 8 + 0 + 16) / 17) with 1; [lia|]. apply Nat.div_unique with ((r + 7) / 8 - 1); lia.
Qed.
Theorem pack_native_spec msg : 0 < nw -> pack_native_input (p:=p) msg = map (fun b => key_elements p nw (key_words msg b)) (seq 0 (S (length msg / 136))).
Proof.
  intros Hn. unfold pack_native_input. cbv zeta. rewrite enumerate_chunks, !map_map.
  set (W := map (fun c => le_bytes (buffer 16 0%Z c)) (chunks 8 msg) ++ _).
  assert (LW : ceil_div (length W) 17 = S (length msg / 136)).
  { rewrite <- native_blocks. f_equal. unfold W. rewrite app_length, map_length, chunks_len. destruct (_ =? 0); now rewrite ?repeat_length. }
  rewrite LW. apply map_ext. intros b. cbn [fst snd]. rewrite (block_words msg W b) by (apply native_words).
  rewrite <- elements_eq by (auto using key_words_length). apply map_ext. intros c. rewrite fold_dot. ring.
Qed.
Theorem encode_native_spec hash msg : 0 < nw -> encode_native_input (p:=p) hash msg = hash (key_input p nw msg).
Proof.
  intros Hn. unfold encode_native_input, key_input. f_equal. rewrite pack_native_spec by auto. rewrite flat_map_concat_map, map_map, <- flat_map_concat_map.
  apply flat_map_ext. intros b. apply key_block_pad.
Qed.

(** ** the circuit encoding, on values *)
Definition format_vals (len : Fp) (bs : list Fp) : list (list (list Fp)) :=
  let words := map (fun c => dot c (firstn (length c) (bytes_to_words_multipliers (p:=p)))) (chunks 8 (bs ++ [F0])) in
  let blocks := map (fun ic => (if fst ic =? 0 then len else F0) :: buffer 17 F0 (snd ic)) (enumerate (chunks 17 words)) in
  map (fun ws => map (buffer 2 F0) (chunks 2 (map (fun c => dot c (words_to_witness_multipliers (p:=p))) (chunks nw ws)))) blocks.
Lemma format_blocks n : ceil_div (ceil_div (n + 1) 8) 17 = S (n / 136).
Proof.
  unfold ceil_div. replace (n + 1 + 8 - 1) with (n + 1 * 8) by lia. rewrite Nat.div_add by lia. replace (n / 8 + 1 + 17 - 1) with (n / 8 + 1 * 17) by lia.
  rewrite Nat.div_add by lia. rewrite Nat.div_div by lia. change (8 * 17) with 136. lia.
Qed.
(** the message, then [k] zero bytes *)
Lemma format_vals_spec msg k : 0 < nw ->
  format_vals (of_Z p (Z.of_nat (length msg))) (map (of_Z p) msg ++ repeat F0 k) =
  map (fun b => map (buffer 2 F0) (chunks 2 (key_elements p nw (key_words msg b)))) (seq 0 (S ((length msg + k) / 136))).
Proof.
  intros Hn. unfold format_vals. cbv zeta.
  set (W := map le_bytes (chunks 8 (msg ++ repeat 0%Z (S k)))).
  assert (E1 : (map (of_Z p) msg ++ repeat F0 k) ++ [F0] = map (of_Z p) (msg ++ repeat 0%Z (S k))).
  { rewrite <- app_assoc, map_app. f_equal. change [F0] with (repeat (@F0 p) 1). rewrite <- repeat_app, Nat.add_1_r. clear. generalize (S k). induction n; cbn [repeat map]; f_equal; auto. }
  assert (EW : map (fun c => dot c (firstn (length c) (bytes_to_words_multipliers (p:=p)))) (chunks 8 ((map (of_Z p) msg ++ repeat F0 k) ++ [F0])) = map (of_Z p) W).
  { rewrite E1, chunks_map. unfold W. rewrite !map_map. unfold chunks. rewrite !map_map. apply map_ext. intros i.
    rewrite map_length. apply word_value. rewrite firstn_length. lia. }
  rewrite EW, chunks_map, enumerate_map, enumerate_chunks, !map_map.
  assert (LW : ceil_div (length W) 17 = S ((length msg + k) / 136)).
  { rewrite <- format_blocks. unfold W. rewrite map_length, chunks_len, app_length, repeat_length. now replace (length msg + S k) with (length msg + k + 1) by lia. }
  rewrite LW. apply map_ext. intros b. cbn [fst snd]. f_equal.
  replace ((if b =? 0 then of_Z p (Z.of_nat (length msg)) else F0) :: buffer 17 F0 (map (of_Z p) (firstn 17 (skipn (b * 17) W))))
    with (map (of_Z p) ((if b =? 0 then Z.of_nat (length msg) else 0%Z) :: buffer 17 0%Z (firstn 17 (skipn (b * 17) W)))).
  - rewrite (block_words msg W b).
    + f_equal. rewrite <- elements_eq by (auto using key_words_length). now rewrite chunks_map, map_map.
    + intros w. unfold W. rewrite word_chunks. apply word_at_pad.
  - cbn [map]. rewrite buffer_map. f_equal. now destruct (b =? 0).
Qed.
End KP.
