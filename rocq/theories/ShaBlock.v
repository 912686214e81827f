(** The 72 rows of a block compute one block of SHA-256; the start rows load the chaining value. *)
From Coq Require Import ZArith Lia List Bool Ring Znumtheory.
From Verif Require Import Field Spec ShaSpec ShaCircuit ShaBits ShaEval ShaRows.
Import ListNotations.
Local Open Scope Z_scope.

Lemma schedule_fn (W : nat -> Z) n : forall k,
  (forall t, (16 + k <= t < 16 + k + n)%nat ->
     W t = (sigma1 (W (t - 2)%nat) + W (t - 7)%nat + sigma0 (W (t - 15)%nat) + W (t - 16)%nat) mod 2 ^ 32) ->
  schedule n (map W (seq 0 (16 + k))) = map W (seq 0 (16 + k + n)).
Proof.
  induction n as [|n IH]; intros k H.
  - rewrite Nat.add_0_r. reflexivity.
  - cbn [schedule]. rewrite map_length, seq_length.
    assert (N : forall i, (i < 16 + k)%nat -> nth i (map W (seq 0 (16 + k))) 0 = W i).
    { intros i Hi. rewrite (nth_indep _ 0 (W 0%nat)) by (rewrite map_length, seq_length; exact Hi).
      rewrite map_nth, seq_nth by exact Hi. reflexivity. }
    rewrite !N by lia. rewrite <- H by lia.
    replace (16 + k + S n)%nat with (16 + S k + n)%nat by lia. rewrite <- (IH (S k)).
    + f_equal. replace (16 + S k)%nat with (16 + k + 1)%nat by lia. rewrite (seq_app (16 + k) 1), map_app. reflexivity.
    + intros t Ht. apply H. lia.
Qed.
Lemma combine_snoc {A B} (a : list A) (b : list B) x y : length a = length b -> combine (a ++ [x]) (b ++ [y]) = combine a b ++ [(x, y)].
Proof.
  revert b. induction a as [|u a IH]; intros [|v b] H; simpl in *; try discriminate; auto. f_equal. apply IH. congruence.
Qed.
Definition win (A E : nat -> Z) (n : nat) : hstate :=
  HS (A n) (A (n - 1)%nat) (A (n - 2)%nat) (A (n - 3)%nat) (E n) (E (n - 1)%nat) (E (n - 2)%nat) (E (n - 3)%nat).
Lemma rounds_fn (K W A E : nat -> Z) n :
  (forall i, (i < n)%nat ->
     let s := win A E (i + 3) in
     let t1 := hh s + Sigma1 (he s) + Ch (he s) (hf s) (hg s) + K i + W i in
     A (i + 4)%nat = (t1 + (Sigma0 (ha s) + Maj (ha s) (hb s) (hc s))) mod 2 ^ 32 /\ E (i + 4)%nat = (hd s + t1) mod 2 ^ 32) ->
  fold_left sha_round (combine (map K (seq 0 n)) (map W (seq 0 n))) (win A E 3) = win A E (n + 3).
Proof.
  induction n as [|n IH]; intros H; [reflexivity|].
  replace (S n) with (n + 1)%nat by lia. rewrite !seq_app, !map_app. cbn [seq map Nat.add].
  rewrite combine_snoc by (rewrite !map_length; reflexivity). rewrite fold_left_app, IH by (intros i Hi; apply H; lia).
  cbn [fold_left]. destruct (H n ltac:(lia)) as [H1 H2]. unfold sha_round.
  unfold win in *. cbn [ha hb hc hd he hf hg hh] in *. replace (n + 1 + 3)%nat with (n + 4)%nat by lia. rewrite H1, H2.
  replace (n + 4 - 1)%nat with (n + 3)%nat by lia. replace (n + 4 - 2)%nat with (n + 3 - 1)%nat by lia.
  replace (n + 4 - 3)%nat with (n + 3 - 2)%nat by lia. reflexivity.
Qed.

Section Block.
Context {p : positive}.
Notation Fp := (F p).
Notation P := (Z.pos p).
Hypothesis Hp : prime P.
Hypothesis Hbig : 2 ^ 40 < P.
Variable t : table p.
Variable nb : Z.
Hypothesis Hrows : SHA_ROWS * nb <= rows t.
Hypothesis HF : fixed_assigned t nb.
Hypothesis HSat : satisfies t sha_gates.
Notation A := (Av t).
Notation E := (Ev t).
Notation W := (Wv t).

Definition row j (i : Z) : Z := SHA_ROWS * j + i.
Definition st_in j : hstate :=
  HS (A (row j 3)) (A (row j 2)) (A (row j 1)) (A (row j 0)) (E (row j 3)) (E (row j 2)) (E (row j 1)) (E (row j 0)).
Definition st_out j : hstate :=
  HS (A (row j 71)) (A (row j 70)) (A (row j 69)) (A (row j 68)) (E (row j 71)) (E (row j 70)) (E (row j 69)) (E (row j 68)).
Definition block_words j : list Z := map (fun q => W (row j (4 + Z.of_nat q))) (seq 0 16).

Lemma block_ok j : 0 <= j < nb -> st_out j = sha_block (st_in j) (block_words j).
Proof.
  intros Hj. unfold sha_block, block_words.
  set (W' := fun q : nat => W (row j (4 + Z.of_nat q))). set (A' := fun n : nat => A (row j (Z.of_nat n))).
  set (E' := fun n : nat => E (row j (Z.of_nat n))).
  assert (HSch : schedule 48 (map W' (seq 0 16)) = map W' (seq 0 64)).
  { apply (schedule_fn W' 48 0). intros q Hq. unfold W'. rewrite (extend_row Hp Hbig t nb Hrows HF HSat j (4 + Z.of_nat q)) by (unfold row; lia).
       replace (row j (4 + Z.of_nat q) - 2) with (row j (4 + Z.of_nat (q - 2))) by (unfold row; lia).
       replace (row j (4 + Z.of_nat q) - 7) with (row j (4 + Z.of_nat (q - 7))) by (unfold row; lia).
       replace (row j (4 + Z.of_nat q) - 15) with (row j (4 + Z.of_nat (q - 15))) by (unfold row; lia).
       replace (row j (4 + Z.of_nat q) - 16) with (row j (4 + Z.of_nat (q - 16))) by (unfold row; lia). reflexivity. }
  rewrite HSch. clear HSch.
  change sha_K with (map (fun i => nth i ROUND_CST 0) (seq 0 64)).
  change (st_in j) with (win A' E' 3).
  rewrite (rounds_fn (fun i => nth i ROUND_CST 0) W' A' E' 64).
  2: { intros i Hi. cbn zeta. unfold win. cbn [ha hb hc hd he hf hg hh].
       destruct (compress_row Hp Hbig t nb Hrows HF HSat j (4 + Z.of_nat i) (row j (4 + Z.of_nat i)) Hj ltac:(lia) eq_refl) as [C1 C2].
       unfold T1, T2 in C1, C2. replace (Z.to_nat (4 + Z.of_nat i - 4)) with i in C1, C2 by lia.
       unfold A', E', W'. replace (Z.of_nat (i + 4)) with (4 + Z.of_nat i) by lia.
       replace (row j (4 + Z.of_nat i) - 1) with (row j (Z.of_nat (i + 3))) in C1, C2 by (unfold row; lia).
       replace (row j (4 + Z.of_nat i) - 2) with (row j (Z.of_nat (i + 3 - 1))) in C1, C2 by (unfold row; lia).
       replace (row j (4 + Z.of_nat i) - 3) with (row j (Z.of_nat (i + 3 - 2))) in C1, C2 by (unfold row; lia).
       replace (row j (4 + Z.of_nat i) - 4) with (row j (Z.of_nat (i + 3 - 3))) in C1, C2 by (unfold row; lia).
       split; assumption. }
  change (64 + 3)%nat with 67%nat. unfold hs_add, win, st_out. cbn [ha hb hc hd he hf hg hh].
  assert (HE : forall k : nat, (k <= 3)%nat -> A (row j (71 - Z.of_nat k)) = (A' (3 - k)%nat + A' (67 - k)%nat) mod 2 ^ 32 /\
                                       E (row j (71 - Z.of_nat k)) = (E' (3 - k)%nat + E' (67 - k)%nat) mod 2 ^ 32).
  { intros k Hk. destruct (end_row Hp Hbig t nb Hrows HF HSat j (71 - Z.of_nat k) (row j (71 - Z.of_nat k)) Hj ltac:(lia) eq_refl) as [C1 C2].
    rewrite C1, C2. unfold A', E'.
    replace (row j (71 - Z.of_nat k) - 4) with (row j (Z.of_nat (67 - k))) by (unfold row; lia).
    replace (row j (71 - Z.of_nat k) - 68) with (row j (Z.of_nat (3 - k))) by (unfold row; lia).
    split; f_equal; apply Z.add_comm. }
  destruct (HE 0%nat ltac:(lia)) as [X0 Y0]. destruct (HE 1%nat ltac:(lia)) as [X1 Y1].
  destruct (HE 2%nat ltac:(lia)) as [X2 Y2]. destruct (HE 3%nat ltac:(lia)) as [X3 Y3].
  f_equal; assumption.
Qed.

(** the chaining value *)
Lemma start_fresh j : 0 <= j < nb -> (forall i, 0 <= i < 4 -> advc t CFinal (row j i) = F1) -> st_in j = sha_H0.
Proof.
  intros Hj HFin.
  assert (S := fun i Hi => proj1 (start_row Hp Hbig t nb Hrows HF HSat j i (row j i) Hj Hi eq_refl) (HFin i Hi)).
  destruct (S 0 ltac:(lia)) as [X0 Y0]. destruct (S 1 ltac:(lia)) as [X1 Y1]. destruct (S 2 ltac:(lia)) as [X2 Y2].
  destruct (S 3 ltac:(lia)) as [X3 Y3]. unfold st_in. rewrite X0, X1, X2, X3, Y0, Y1, Y2, Y3. reflexivity.
Qed.
Lemma start_chain j : 0 < j < nb -> (forall i, 0 <= i < 4 -> advc t CFinal (row j i) = F0) -> st_in j = st_out (j - 1).
Proof.
  intros Hj HFin.
  assert (S := fun i Hi => proj2 (start_row Hp Hbig t nb Hrows HF HSat j i (row j i) ltac:(lia) Hi eq_refl) (HFin i Hi) ltac:(lia)).
  destruct (S 0 ltac:(lia)) as [X0 Y0]. destruct (S 1 ltac:(lia)) as [X1 Y1]. destruct (S 2 ltac:(lia)) as [X2 Y2].
  destruct (S 3 ltac:(lia)) as [X3 Y3]. unfold st_in, st_out. rewrite X0, X1, X2, X3, Y0, Y1, Y2, Y3.
  unfold row, SHA_ROWS.
  replace (72 * (j - 1) + 71) with (72 * j + 3 - 4) by lia. replace (72 * (j - 1) + 70) with (72 * j + 2 - 4) by lia.
  replace (72 * (j - 1) + 69) with (72 * j + 1 - 4) by lia. replace (72 * (j - 1) + 68) with (72 * j + 0 - 4) by lia. reflexivity.
Qed.
End Block.
