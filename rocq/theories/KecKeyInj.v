(** The elements hashed into a lookup key determine the message; ingestion format. *)
From Coq Require Import ZArith Lia List Bool Arith.
From Verif Require Import Field Spec Context ContextProofs Range SafeTypes SafeProofs2 KecSpec KeySpec KecCircuit KecClaim KecComp KecCompPure KecCompProofs KecShard.
Import ListNotations.
Local Open Scope nat_scope.

Lemma undigits_inj b : forall l l', length l = length l' -> Forall (fun d => 0 <= d < 2 ^ Z.of_nat b)%Z l -> Forall (fun d => 0 <= d < 2 ^ Z.of_nat b)%Z l' ->
  undigits b l = undigits b l' -> l = l'.
Proof.
  induction l as [|x l IH]; intros [|y l'] HL F1 F2 E; try discriminate; auto. apply Forall_cons_iff in F1 as [X1 F1]. apply Forall_cons_iff in F2 as [Y1 F2].
  cbn [undigits] in E. assert (x = y /\ undigits b l = undigits b l') as [-> E'].
  { remember (2 ^ Z.of_nat b)%Z as B. clear - E X1 Y1. remember (undigits b l) as u. remember (undigits b l') as v. clear Hequ Heqv.
    rewrite !(Z.mul_comm B) in E. split.
    - rewrite <- (Z.mod_small x B), <- (Z.mod_small y B) by lia. rewrite <- (Z.mod_add x u B), <- (Z.mod_add y v B) by lia. now rewrite E.
    - assert (D : ((x + u * B) / B = (y + v * B) / B)%Z) by now rewrite E. rewrite !Z.div_add, !Z.div_small in D by lia. lia. }
  f_equal. apply IH; auto.
Qed.
Lemma le_bytes_undigits l : le_bytes l = undigits 8 l.
Proof. induction l; cbn [le_bytes undigits]; auto. rewrite IHl. reflexivity. Qed.
Lemma word_bound msg w : is_bytes msg -> (0 <= word_at msg w < 2 ^ 64)%Z.
Proof.
  intros HB. unfold word_at. rewrite le_bytes_undigits.
  assert (F : Forall (fun d => 0 <= d < 2 ^ Z.of_nat 8)%Z (firstn 8 (skipn (8 * w) msg))).
  { apply Forall_forall. intros x Hx. unfold is_bytes in HB. rewrite Forall_forall in HB. apply HB.
    rewrite <- (firstn_skipn (8 * w) msg). apply in_or_app. right. rewrite <- (firstn_skipn 8 (skipn (8 * w) msg)). apply in_or_app. now left. }
  apply undigits_bound in F. split; [lia|]. eapply Z.lt_le_trans; [apply F|]. apply Z.pow_le_mono_r; [lia|]. rewrite firstn_length. lia.
Qed.
Lemma key_words_bound msg b : is_bytes msg -> (Z.of_nat (length msg) < 2 ^ 64)%Z -> Forall (fun d => 0 <= d < 2 ^ Z.of_nat 64)%Z (key_words msg b).
Proof.
  intros HB HL. unfold key_words. apply Forall_cons; [destruct (b =? 0); lia|]. apply Forall_forall. intros x Hx. apply in_map_iff in Hx as (t & <- & _).
  replace (136 * b + 8 * t) with (8 * (17 * b + t)) by lia. now apply word_bound.
Qed.
Lemma app_split {A} (a b c d : list A) : length a = length c -> a ++ b = c ++ d -> a = c /\ b = d.
Proof. revert c. induction a as [|x a IH]; intros [|y c] HL E; try discriminate; cbn in *; auto. injection E as -> E. injection HL as HL. destruct (IH c HL E) as [-> ->]. auto. Qed.
Lemma concat_inj {A} n : forall (l l' : list (list A)), length l = length l' -> Forall (fun c => length c = n) l -> Forall (fun c => length c = n) l' ->
  concat l = concat l' -> l = l'.
Proof.
  induction l as [|x l IH]; intros [|y l'] HL F1 F2 E; try discriminate; auto. apply Forall_cons_iff in F1 as [X1 F1]. apply Forall_cons_iff in F2 as [Y1 F2].
  cbn [concat] in E. apply app_split in E as [-> E]; [|lia]. f_equal. auto.
Qed.
Lemma words_inj m1 m2 : length m1 = length m2 -> is_bytes m1 -> is_bytes m2 -> (forall w, word_at m1 w = word_at m2 w) -> m1 = m2.
Proof.
  intros HL B1 B2 HW. rewrite <- (concat_chunks 8 m1), <- (concat_chunks 8 m2) by lia. f_equal. unfold chunks. rewrite HL. apply map_ext. intros i.
  specialize (HW i). unfold word_at in HW. rewrite !le_bytes_undigits in HW. rewrite (Nat.mul_comm i 8). unfold is_bytes in *. rewrite Forall_forall in *.
  apply (undigits_inj 8); auto.
  - rewrite !firstn_length, !skipn_length. lia.
  - apply Forall_forall. intros x Hx. apply B1. rewrite <- (firstn_skipn (8 * i) m1). apply in_or_app. right. rewrite <- (firstn_skipn 8 (skipn (8 * i) m1)). apply in_or_app. now left.
  - apply Forall_forall. intros x Hx. apply B2. rewrite <- (firstn_skipn (8 * i) m2). apply in_or_app. right. rewrite <- (firstn_skipn 8 (skipn (8 * i) m2)). apply in_or_app. now left.
Qed.

Section KI.
Context {p : positive}.
Notation nw := (KecCompPure.nw (p:=p)).
Hypothesis Hnw : 0 < nw.
Lemma elements_inj ws ws' : length ws = 18 -> length ws' = 18 -> Forall (fun d => 0 <= d < 2 ^ Z.of_nat 64)%Z ws -> Forall (fun d => 0 <= d < 2 ^ Z.of_nat 64)%Z ws' ->
  key_elements p nw ws = key_elements p nw ws' -> ws = ws'.
Proof.
  intros L1 L2 F1 F2 E. rewrite <- (concat_chunks nw ws), <- (concat_chunks nw ws') by auto. f_equal. unfold chunks. rewrite L1, L2. apply map_ext_in. intros i Hi.
  unfold key_elements in E. apply in_seq in Hi. change (ceil_div 18 nw) with (block_elements nw) in Hi.
  assert (EI : nth i (map (fun j => of_Z p (undigits 64 (firstn nw (skipn (nw * j) ws)))) (seq 0 (block_elements nw))) (of_Z p 0) =
               nth i (map (fun j => of_Z p (undigits 64 (firstn nw (skipn (nw * j) ws')))) (seq 0 (block_elements nw))) (of_Z p 0)) by now rewrite E.
  rewrite !nth_map_seq in EI by lia. rewrite (Nat.mul_comm i nw).
  assert (BD : forall w : list Z, Forall (fun d => 0 <= d < 2 ^ Z.of_nat 64)%Z w -> Forall (fun d => 0 <= d < 2 ^ Z.of_nat 64)%Z (firstn nw (skipn (nw * i) w))).
  { intros w Fw. rewrite Forall_forall in *. intros x Hx. apply Fw. rewrite <- (firstn_skipn (nw * i) w). apply in_or_app. right. rewrite <- (firstn_skipn nw (skipn (nw * i) w)). apply in_or_app. now left. }
  assert (BU : forall w : list Z, Forall (fun d => 0 <= d < 2 ^ Z.of_nat 64)%Z w -> (0 <= undigits 64 (firstn nw (skipn (nw * i) w)) < Z.pos p)%Z).
  { intros w Fw. pose proof (undigits_bound 64 _ (BD w Fw)) as [U1 U2]. split; auto. eapply Z.lt_le_trans; [exact U2|].
    destruct (CAPACITY_bound p) as [C _]. eapply Z.le_trans; [|exact C]. apply Z.pow_le_mono_r; [lia|].
    apply inj_le. assert (64 * nw <= CAPACITY p). { unfold KecCompPure.nw, num_word_per_witness. apply Nat.mul_div_le. lia. }
    assert (length (firstn nw (skipn (nw * i) w)) <= nw) by (rewrite firstn_length; lia). nia. }
  apply (undigits_inj 64); auto.
  - rewrite !firstn_length, !skipn_length. lia.
  - pose proof (BU ws F1). pose proof (BU ws' F2). apply (f_equal val) in EI. now rewrite !val_of_Z_small in EI by lia.
Qed.
Lemma key_block_length msg b : length (key_block p nw msg b) = block_elements nw + (if Nat.odd (block_elements nw) then 1 else 0).
Proof. unfold key_block, key_elements. rewrite app_length, map_length, seq_length. now destruct (Nat.odd _). Qed.
Lemma key_block_inj m1 m2 b : is_bytes m1 -> is_bytes m2 -> (Z.of_nat (length m1) < 2 ^ 64)%Z -> (Z.of_nat (length m2) < 2 ^ 64)%Z ->
  key_block p nw m1 b = key_block p nw m2 b -> key_words m1 b = key_words m2 b.
Proof.
  intros B1 B2 L1 L2 E. unfold key_block in E. apply app_split in E as [E _].
  - apply elements_inj in E; auto using key_words_length, key_words_bound.
  - unfold key_elements. now rewrite !map_length.
Qed.
Lemma elements_pos : 0 < block_elements nw.
Proof. unfold block_elements. apply Nat.div_str_pos. lia. Qed.
Theorem key_input_inj m1 m2 : is_bytes m1 -> is_bytes m2 -> (Z.of_nat (length m1) < 2 ^ 64)%Z -> (Z.of_nat (length m2) < 2 ^ 64)%Z ->
  key_input p nw m1 = key_input p nw m2 -> m1 = m2.
Proof.
  intros B1 B2 L1 L2 E. set (E0 := block_elements nw + (if Nat.odd (block_elements nw) then 1 else 0)).
  assert (EL : length m1 = length m2).
  { assert (E1 : firstn E0 (key_input p nw m1) = firstn E0 (key_input p nw m2)) by now rewrite E.
    unfold key_input in E1. cbn [seq flat_map] in E1. rewrite !firstn_app, !key_block_length in E1.
    rewrite (firstn_all2 (key_block p nw m1 0)), (firstn_all2 (key_block p nw m2 0)) in E1 by (rewrite key_block_length; unfold E0; lia).
    fold E0 in E1. rewrite Nat.sub_diag in E1. cbn [firstn] in E1. rewrite !app_nil_r in E1. apply key_block_inj in E1; auto. unfold key_words in E1. cbn [Nat.eqb] in E1. injection E1 as E1 _. lia. }
  apply words_inj; auto. intros w.
  assert (EB : map (key_block p nw m1) (seq 0 (S (length m1 / 136))) = map (key_block p nw m2) (seq 0 (S (length m1 / 136)))).
  { unfold key_input in E. rewrite !flat_map_concat_map, <- EL in E. apply (concat_inj E0) in E; auto.
    - now rewrite !map_length.
    - apply Forall_forall. intros c Hc. apply in_map_iff in Hc as (b & <- & _). apply key_block_length.
    - apply Forall_forall. intros c Hc. apply in_map_iff in Hc as (b & <- & _). apply key_block_length. }
  destruct (Nat.lt_ge_cases (w / 17) (S (length m1 / 136))) as [Hw|Hw].
  - assert (EN := f_equal (fun l => nth (w / 17) l []) EB). cbv beta in EN. rewrite !nth_map_seq in EN by auto. apply key_block_inj in EN; auto.
    pose proof (Nat.div_mod w 17 ltac:(lia)). pose proof (Nat.mod_upper_bound w 17 ltac:(lia)).
    assert (E1 := key_words_nth m1 (w / 17) (w mod 17) ltac:(lia)). assert (E2 := key_words_nth m2 (w / 17) (w mod 17) ltac:(lia)).
    rewrite <- H in E1, E2. rewrite <- E1, <- E2, EN. reflexivity.
  - pose proof (Nat.div_mod w 17 ltac:(lia)). pose proof (Nat.mod_upper_bound w 17 ltac:(lia)). pose proof (Nat.div_mod (length m1) 136 ltac:(lia)). pose proof (Nat.mod_upper_bound (length m1) 136 ltac:(lia)).
    unfold word_at. rewrite !le_bytes_nil_chunk by lia. reflexivity.
Qed.
End KI.

(** ** ingestion *)
(** the entry of block [b] of a message: its bytes, completed with zeros, the length in the first block, and the digest in the last *)
Definition ingestion_entry (msg hash : list Z) (b : nat) : ingestion :=
  let last := b =? length msg / 136 in
  Ingestion (let c := firstn 136 (skipn (136 * b) msg) in c ++ repeat 0%Z (136 - length c)) (if b =? 0 then length msg else 0) last
    (if last then digest_lo hash else 0%Z) (if last then digest_hi hash else 0%Z).
Definition ingestion_entries (msg hash : list Z) : list ingestion := map (ingestion_entry msg hash) (seq 0 (S (length msg / 136))).
Lemma set_last_snoc hash l x : set_last hash (l ++ [x]) = l ++ [Ingestion (ig_bytes x) (ig_len x) true (digest_lo hash) (digest_hi hash)].
Proof. unfold set_last. rewrite rev_app_distr. cbn [rev app]. now rewrite rev_involutive. Qed.
Lemma zero_halves : digest_lo (repeat 0%Z 32) = 0%Z /\ digest_hi (repeat 0%Z 32) = 0%Z.
Proof. split; reflexivity. Qed.
Theorem ingest_one_spec msg h : ingest_one (msg, h) = ingestion_entries msg (match h with Some x => x | None => keccak256 msg end).
Proof.
  unfold ingest_one, ingestion_entries. cbn [fst snd]. cbv zeta. generalize (match h with Some x => x | None => keccak256 msg end). intros hash.
  rewrite enumerate_chunks, map_map. cbn [fst snd]. pose proof (Nat.div_mod (length msg) 136 ltac:(lia)) as D. pose proof (Nat.mod_upper_bound (length msg) 136 ltac:(lia)) as B.
  rewrite seq_S, map_app. cbn [map Nat.add].
  set (f := fun x => ingestion_new (buffer 136 0%Z (firstn 136 (skipn (x * 136) msg))) (if x =? 0 then length msg else 0) false (repeat 0%Z 32)).
  assert (FE : forall b, b < length msg / 136 -> f b = ingestion_entry msg hash b).
  { intros b Hb. unfold f, ingestion_new, ingestion_entry, buffer. destruct zero_halves as [-> ->]. rewrite (proj2 (Nat.eqb_neq b (length msg / 136))) by lia. rewrite (Nat.mul_comm b 136). reflexivity. }
  assert (FM : map f (seq 0 (length msg / 136)) = map (ingestion_entry msg hash) (seq 0 (length msg / 136))).
  { apply map_ext_in. intros b Hb. apply in_seq in Hb. apply FE. lia. }
  destruct (Nat.eqb_spec (length msg mod 136) 0) as [E|E].
  - assert (C : ceil_div (length msg) 136 = length msg / 136).
    { unfold ceil_div. replace (length msg + 136 - 1) with (135 + (length msg / 136) * 136) by lia. rewrite Nat.div_add by lia. reflexivity. }
    rewrite C, set_last_snoc, FM. do 2 f_equal. unfold ingestion_entry, ingestion_default, ingestion_new. cbn [ig_bytes ig_len]. rewrite Nat.eqb_refl. cbv zeta.
    rewrite skipn_all2 by lia. cbn [firstn length app Nat.sub]. f_equal. destruct (Nat.eqb_spec (length msg / 136) 0); lia.
  - assert (C : ceil_div (length msg) 136 = S (length msg / 136)).
    { unfold ceil_div. replace (length msg + 136 - 1) with ((length msg mod 136 - 1) + S (length msg / 136) * 136) by lia. rewrite Nat.div_add, Nat.div_small by lia. reflexivity. }
    rewrite C, app_nil_r, seq_S, map_app. cbn [map Nat.add]. rewrite set_last_snoc, FM. do 2 f_equal. unfold f, ingestion_entry, ingestion_new, buffer. cbn [ig_bytes ig_len]. rewrite Nat.eqb_refl. cbv zeta. now rewrite (Nat.mul_comm _ 136).
Qed.
