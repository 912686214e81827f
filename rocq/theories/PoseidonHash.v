(** The block-by-block sponge of the implementation is the padded sponge of the specification. *)
From Coq Require Import ZArith Lia List Bool Znumtheory Ring Arith.
From Verif Require Import Field Context ContextProofs Spec Logic Utils Gate GateProofs Calc
  Range SafeTypes Det PoseidonMds PoseidonSpec PoseidonOpt PoseidonOpt2 PoseidonChip PoseidonChipProofs PoseidonChipProofs2 PoseidonChipProofs3.
Import ListNotations.
Local Open Scope nat_scope.

Section PH.
Context {p : positive}.
Add Ring Fring : (F_ring p) (morphism (F_morph p), constants [Fcst]).
Notation Fp := (F p).
Notation vec := (list Fp).
Variables (T RATE : nat).
Hypothesis HTR : T = S RATE.
Hypothesis HR : 0 < RATE.
Variable sp : opt_spec (p:=p).
Let pre := nth 0 (oc_start (os_consts sp)) [].
Variable perm : vec -> vec.
Hypothesis Hpre : length pre = T.
Hypothesis Hperm : forall s, length s = T -> opt_rounds T sp (add_vec s pre) = perm s.
Hypothesis Hplen : forall s, length s = T -> length (perm s) = T.

Lemma add_vec_len' (a b : vec) : length (add_vec a b) = Nat.min (length a) (length b).
Proof. unfold add_vec. now rewrite map_length, combine_length. Qed.

(** a short block is completed by a one and zeros *)
Definition pad_blk (l : vec) : vec := if length l <? RATE then l ++ F1 :: repeat F0 (RATE - 1 - length l) else l.
Lemma pad_blk_len l : length l <= RATE -> length (pad_blk l) = RATE.
Proof. intros H. unfold pad_blk. destruct (Nat.ltb_spec (length l) RATE); [|lia]. rewrite app_length. cbn [length]. rewrite repeat_length. lia. Qed.
Lemma pad_blk_get l i : length l <= RATE -> i < RATE ->
  vget (pad_blk l) i = if i <? length l then vget l i else if i =? length l then F1 else F0.
Proof.
  intros Hl Hi. unfold pad_blk. destruct (Nat.ltb_spec (length l) RATE) as [H|H].
  - rewrite vget_app. destruct (Nat.ltb_spec i (length l)); auto.
    destruct (Nat.eqb_spec i (length l)) as [->|]; [now rewrite Nat.sub_diag|].
    destruct (i - length l) as [|k] eqn:E; [lia|]. unfold vget. cbn [nth]. apply nth_repeat.
  - destruct (Nat.ltb_spec i (length l)); [reflexivity|lia].
Qed.
Lemma n_absorb_vec l s : length l <= RATE -> length s = T -> n_absorb T pre l s = add_vec (add_vec s (F0 :: pad_blk l)) pre.
Proof.
  intros Hl Hs. pose proof (pad_blk_len l Hl) as Pl.
  assert (L1 : length (add_vec s (F0 :: pad_blk l)) = T) by (rewrite add_vec_len'; cbn [length]; lia).
  apply (vec_ext T); [apply tab_len|rewrite add_vec_len'; lia|]. intros i Hi.
  unfold n_absorb. rewrite vget_tab by auto.
  rewrite (vget_add_vec _ _ i) by (cbn [length]; lia). rewrite (vget_add_vec _ _ i) by (cbn [length]; lia).
  destruct i as [|i].
  - change (0 =? 0) with true. cbv iota. unfold vget at 4. cbn [nth]. ring.
  - change (S i =? 0) with false. cbv iota. change (vget (F0 :: pad_blk l) (S i)) with (vget (pad_blk l) i). rewrite pad_blk_get by lia.
    replace (S i - 1) with i by lia.
    destruct (Nat.leb_spec (S i) (length l)), (Nat.ltb_spec i (length l)); try lia; [ring|].
    destruct (Nat.eqb_spec (S i) (length l + 1)), (Nat.eqb_spec i (length l)); try lia; ring.
Qed.
Lemma opt_perm_block l s : length l <= RATE -> length s = T -> opt_perm T sp l s = absorb_block perm s (pad_blk l).
Proof.
  intros Hl Hs. unfold opt_perm, absorb_block. fold pre. rewrite n_absorb_vec by auto. apply Hperm.
  rewrite add_vec_len'. cbn [length]. rewrite pad_blk_len by auto. lia.
Qed.
Lemma opt_perm_len l s : length l <= RATE -> length s = T -> length (opt_perm T sp l s) = T.
Proof.
  intros Hl Hs. rewrite opt_perm_block by auto. apply Hplen. rewrite add_vec_len'. cbn [length]. rewrite pad_blk_len by auto. lia.
Qed.
Lemma blk_len' {A} (m : list A) i : length (blk RATE m i) <= RATE.
Proof. unfold blk. rewrite firstn_length. apply Nat.le_min_l. Qed.
Lemma blk_full_len' {A} (l : list A) i : (S i) * RATE <= length l -> length (blk RATE l i) = RATE.
Proof. clear. intros H. unfold blk. rewrite firstn_length, skipn_length. lia. Qed.
Lemma n_state_len m k s : length s = T -> length (n_state T RATE sp m k s) = T.
Proof.
  intros Hs. induction k as [|k IH]; [exact Hs|]. rewrite n_state_S. apply opt_perm_len; auto. apply blk_len'.
Qed.

Lemma skipn_skipn' {A} i j (l : list A) : skipn i (skipn j l) = skipn (j + i) l.
Proof. revert l. induction j as [|j IH]; intros [|x l]; cbn; auto. now rewrite skipn_nil. Qed.
Lemma blocks_spec k : forall fuel (m : vec), length m = k * RATE -> k <= fuel -> blocks fuel RATE m = map (blk RATE m) (seq 0 k).
Proof.
  induction k as [|k IH]; intros fuel m Hm Hf.
  - destruct m; [|cbn in Hm; lia]. destruct fuel; reflexivity.
  - destruct fuel as [|fuel]; [lia|]. destruct m as [|x m']; [cbn in Hm; lia|]. set (m := x :: m') in *.
    change (blocks (S fuel) RATE m) with (firstn RATE m :: blocks fuel RATE (skipn RATE m)).
    rewrite IH by (rewrite ?skipn_length; lia). cbn [seq map]. f_equal.
    rewrite <- seq_shift, map_map. apply map_ext. intros i. unfold blk. rewrite skipn_skipn'. reflexivity.
Qed.
Lemma fold_left_map' {A B C} (f : A -> C -> A) (g : B -> C) l a : fold_left f (map g l) a = fold_left (fun x y => f x (g y)) l a.
Proof. revert a. induction l as [|y l IH]; intros a; cbn; auto. Qed.

Theorem n_squeeze_spec m s : length s = T -> n_squeeze T RATE sp m s = sponge_absorb RATE perm s m.
Proof.
  intros Hs. unfold n_squeeze, sponge_absorb. cbv zeta.
  assert (ED : length m = RATE * (length m / RATE) + length m mod RATE) by (apply Nat.div_mod; lia).
  assert (LD : length m mod RATE < RATE) by (apply Nat.mod_upper_bound; lia).
  set (q := length m / RATE) in *. set (r := length m mod RATE) in *.
  set (z := RATE - 1 - r).
  assert (Ep : pad_message RATE m = m ++ F1 :: repeat F0 z) by reflexivity.
  assert (Lp : length (pad_message RATE m) = S q * RATE). { rewrite Ep, app_length. cbn [length]. rewrite repeat_length. unfold z. lia. }
  rewrite (blocks_spec (S q)) by (auto; rewrite ?Lp; nia).
  rewrite fold_left_map', seq_S, fold_left_app. cbn [fold_left Nat.add].
  assert (Hlast : blk RATE (pad_message RATE m) q = pad_blk (skipn (q * RATE) m)).
  { unfold blk. rewrite Ep, skipn_app. replace (q * RATE - length m) with 0 by lia. cbn [skipn].
    unfold pad_blk. rewrite skipn_length. replace (length m - q * RATE) with r by lia. destruct (Nat.ltb_spec r RATE); [|lia].
    rewrite firstn_all2; [reflexivity|]. rewrite app_length, skipn_length. cbn [length]. rewrite repeat_length. unfold z. lia. }
  rewrite Hlast.
  assert (Hk : forall k, k <= q -> fold_left (fun x y => absorb_block perm x (blk RATE (pad_message RATE m) y)) (seq 0 k) s = n_state T RATE sp m k s).
  { induction k as [|k IH]; intros Hk; [reflexivity|]. rewrite seq_S, fold_left_app, IH by lia. cbn [fold_left Nat.add].
    rewrite n_state_S, opt_perm_block; [|apply blk_len'|now apply n_state_len]. f_equal.
    assert (Eb : blk RATE (pad_message RATE m) k = blk RATE m k).
    { unfold blk. rewrite Ep, skipn_app, firstn_app, skipn_length.
      replace (RATE - (length m - k * RATE)) with 0 by nia. cbn [firstn]. apply app_nil_r. }
    rewrite Eb. unfold pad_blk. rewrite blk_full_len' by nia. now rewrite Nat.ltb_irrefl. }
  rewrite Hk by lia. apply opt_perm_block; [|now apply n_state_len]. rewrite skipn_length. lia.
Qed.
End PH.
