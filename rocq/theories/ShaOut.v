(** The cells handed out for generated SHA-256 rows. *)
From Coq Require Import ZArith Lia List Bool Ring.
From Verif Require Import Field Spec ShaSpec ShaCircuit ShaBits ShaEval ShaRows ShaBlock ShaPad ShaMsg PropsSha ShaWitness ShaGen ShaComp ShaGen2.
Import ListNotations.
Local Open Scope Z_scope.

Lemma St_all d : dok d -> St d 64 = fold_left sha_round (combine sha_K (sched d)) (d_hs d).
Proof.
  intros H. pose proof (sched_len d H) as L. unfold St. revert L. generalize (sched d). generalize (d_hs d). intros hs l L.
  rewrite firstn_all2; [exact eq_refl|]. rewrite combine_length, L. change (length sha_K) with 64%nat. lia.
Qed.
Local Opaque schedule W St.
Lemma hs_out_block d : dok d -> hs_out d = sha_block (d_hs d) (sha_words (d_bytes d)).
Proof.
  intros H. pose proof (St_all d H) as E. unfold hs_out, sha_block. rewrite E. unfold sched. generalize (schedule 48 (sha_words (d_bytes d))). intros l. exact eq_refl.
Qed.
Local Opaque hs_out sha_block.
Lemma mkchain_out L ps : forall idx hs, hsb hs -> Forall blockok ps -> (0 < length ps)%nat ->
  hs_out (nth (length ps - 1) (mkchain L idx hs ps) d0) = fold_left sha_block (map sha_words ps) hs.
Proof.
  induction ps as [|b ps IH]; intros idx hs Hh HB HL; [cbn [length] in HL; lia|]. apply Forall_cons_iff in HB. destruct HB as [Hb HB].
  cbn [mkchain map fold_left length]. set (d := BD hs b L idx _). assert (K : dok d) by (split; [exact Hh|exact Hb]).
  pose proof (hs_out_block d K) as E. change (d_hs d) with hs in E. change (d_bytes d) with b in E. rewrite <- E.
  destruct (Nat.eq_dec (length ps) 0) as [Z0|Z0].
  - destruct ps; [reflexivity|discriminate Z0].
  - rewrite <- (IH (S idx) (hs_out d)) by (try apply hs_out_b; try exact HB; lia). f_equal.
    replace (S (length ps) - 1)%nat with (S (length ps - 1)) by lia. reflexivity.
Qed.
Lemma msg_out msg : Forall (fun x => 0 <= x < 256) msg -> hs_bytes (hs_out (nth (length (msg_chain msg) - 1) (msg_chain msg) d0)) = sha256 msg.
Proof.
  intros HB. destruct (msg_chain_len msg) as (n & Hn & _ & EC & _ & EP). unfold sha256, sha_blocks, msg_chain in *. rewrite mkchain_len.
  rewrite mkchain_out; [reflexivity|exact H0_b|exact (pieces_ok n _ _ (pad_length msg n Hn) (pad_bytes msg HB))|lia].
Qed.
Lemma skip4 (l : list Z) q : (4 * q + 4 <= length l)%nat -> firstn 4 (skipn (4 * q) l) = map (fun k => nth (4 * q + k) l 0) (seq 0 4).
Proof.
  intros Hl. apply nth_ext with (d := 0) (d' := 0).
  - rewrite firstn_length, skipn_length, map_length, seq_length. lia.
  - intros k Hk. rewrite firstn_length, skipn_length in Hk.
    assert (E : nth k (map (fun k => nth (4 * q + k) l 0) (seq 0 4)) 0 = nth (4 * q + k) l 0) by (destruct k as [|[|[|[|k]]]]; try reflexivity; lia).
    rewrite E. rewrite <- (firstn_skipn (4 * q) l) at 2.
    rewrite app_nth2 by (rewrite firstn_length; lia). rewrite firstn_length, Nat.min_l by lia. replace (4 * q + k - 4 * q)%nat with k by lia.
    generalize (skipn (4 * q) l). intros m. destruct k as [|[|[|[|k]]]]; destruct m as [|? [|? [|? [|? ?]]]]; try reflexivity; lia.
Qed.
(** the word cell of an input row: the bytes of the message, zero from its end on *)
Lemma word_of_row d q : dok d -> (q < 16)%nat -> v_word (drow d (4 + q)) =
  le_val (map (fun k => if (d_n d <=? 64 * d_idx d + 4 * q + k)%nat then 0 else nth (4 * q + k) (d_bytes d) 0) (seq 0 4)).
Proof.
  intros K Hq. unfold drow, add_row. cbn [v_word].
  assert (HI : d_input (4 + q) = true) by (unfold d_input; rewrite (proj2 (Nat.leb_le 4 (4 + q))), (proj2 (Nat.ltb_lt (4 + q) 20)) by lia; reflexivity).
  rewrite HI. f_equal.
  assert (EB : be_bytes 4 (low32 (wv d (4 + q))) = firstn 4 (skipn (4 * q) (d_bytes d))).
  { rewrite low32_mod, wv_at by (exact K || lia). replace (4 + q - 4)%nat with q by lia. rewrite W_in by assumption. destruct K as (_ & HL & HB).
    apply be_bytes_unique; [rewrite firstn_length, skipn_length; lia|apply Forall_firstn', Forall_skipn', HB]. }
  rewrite EB, skip4 by (destruct K as (_ & -> & _); lia). unfold d_pads. rewrite (proj2 (Nat.ltb_ge (4 + q) 4)), (proj2 (Nat.ltb_lt (4 + q) 20)) by lia.
  replace (4 + q - 4)%nat with q by lia. reflexivity.
Qed.
Lemma chain_block msg b : mok msg -> (b < length (msg_chain msg))%nat ->
  let d := nth b (msg_chain msg) d0 in
  dok d /\ d_n d = length msg /\ d_idx d = b /\ d_fin d = (S b =? length (msg_chain msg))%nat /\
  (forall x, (x < 64)%nat -> nth x (d_bytes d) 0 = nth (64 * b + x) (sha_pad msg) 0).
Proof.
  intros [HB HL] Hb. cbv zeta. destruct (msg_chain_ok msg HB HL) as (V & _ & _ & _ & F).
  assert (K : dok (nth b (msg_chain msg) d0)) by (apply (proj1 (Forall_forall _ _) V), nth_In, Hb). split; [exact K|].
  destruct (msg_chain_len msg) as (n & Hn & _ & EC & _ & EP).
  destruct (nth_mkchain (length msg) (pieces (length (sha_pad msg)) 64 (sha_pad msg)) 0 sha_H0 b ltac:(lia)) as (E1 & E2 & E3 & _). cbv zeta in *.
  fold (msg_chain msg) in E1, E2, E3. split; [exact E1|]. split; [rewrite E2; lia|]. split; [now apply F|].
  intros x Hx. rewrite E3. pose proof (pad_length msg n Hn) as HLp. rewrite nth_pieces by lia.
  rewrite <- (firstn_skipn (64 * b) (sha_pad msg)) at 2. rewrite app_nth2 by (rewrite firstn_length; lia).
  rewrite firstn_length, Nat.min_l by lia. replace (64 * b + x - 64 * b)%nat with x by lia.
  set (m := skipn (64 * b) (sha_pad msg)). assert (LM : (64 <= length m)%nat) by (unfold m; rewrite skipn_length; lia).
  rewrite <- (firstn_skipn 64 m) at 2. rewrite app_nth1 by (rewrite firstn_length; lia). reflexivity.
Qed.
Definition nblk (msg : list Z) : nat := length (msg_chain msg).
Definition offs (msgs : list (list Z)) (k : nat) : nat := length (chains (firstn k msgs)).
Lemma nth_chains msgs : forall k msg b, nth_error msgs k = Some msg -> (b < nblk msg)%nat ->
  (offs msgs k + b < length (chains msgs))%nat /\ nth (offs msgs k + b) (chains msgs) d0 = nth b (msg_chain msg) d0.
Proof.
  unfold offs, chains, nblk. induction msgs as [|m msgs IH]; intros k msg b Hk Hb; [destruct k; discriminate Hk|].
  destruct k as [|k].
  - injection Hk as ->. cbn [firstn flat_map length Nat.add]. rewrite app_length. split; [lia|]. apply app_nth1. exact Hb.
  - cbn [nth_error] in Hk. cbn [firstn flat_map]. destruct (IH k msg b Hk Hb) as [H1 H2]. rewrite !app_length. split; [lia|].
    rewrite app_nth2 by lia. rewrite <- H2. f_equal. lia.
Qed.
Lemma offs_S msgs k msg : nth_error msgs k = Some msg -> offs msgs (S k) = (offs msgs k + nblk msg)%nat.
Proof.
  unfold offs, chains, nblk. revert k. induction msgs as [|m msgs IH]; intros k Hk; [destruct k; discriminate Hk|].
  destruct k as [|k]; [injection Hk as ->; cbn [firstn flat_map length]; rewrite app_nil_r; reflexivity|].
  cbn [nth_error] in Hk. specialize (IH k Hk). change (firstn (S (S k)) (m :: msgs)) with (m :: firstn (S k) msgs).
  change (firstn (S k) (m :: msgs)) with (m :: firstn k msgs). cbn [flat_map]. rewrite !app_length, IH. lia.
Qed.

Section Out.
Context {p : positive}.
Variable msgs : list (list Z).
Variable n : Z.
Variable junk : acol -> Z -> F p.
Hypothesis HM : Forall mok msgs.
Hypothesis Hn : SHA_ROWS * Z.of_nat (length (chains msgs)) <= n.
Notation t := (assigned_table n junk (flat_map drows (chains msgs))).
Lemma t_sat : satisfies t sha_gates.
Proof.
  destruct (good_chains msgs HM) as (G1 & G2 & G3 & _). destruct (chains msgs) as [|d l] eqn:E.
  - intros r Hr. change (rows (assigned_table n junk (flat_map drows []))) with n in Hr. cbn [length] in Hn.
    apply (h_off [] n junk eq_refl). cbn [length]. unfold SHA_ROWS in *. lia.
  - rewrite <- E in *. apply chain_satisfies; [exact Hn|exact G1|exact G2|]. apply G3. rewrite E. cbn [length]. lia.
Qed.
Lemma out_cells j : (j < length (chains msgs))%nat ->
  let d := nth j (chains msgs) d0 in let o := assigned_block t (Z.of_nat j) in
  o_final o = fbool (d_fin d) /\ o_lo o = of_Z p (d_limb d 71) /\ o_hi o = of_Z p (d_limb d 70) /\
  o_words o = map (fun q => of_Z p (v_word (drow d (4 + q)))) (seq 0 16) /\ o_len o = of_Z p (lenq d 16).
Proof.
  intros Hj. cbv zeta. unfold assigned_block. cbn [o_final o_lo o_hi o_words o_len].
  assert (A : forall c i, (i < 72)%nat -> advc t c (SHA_ROWS * Z.of_nat j + Z.of_nat i) = cell (drow (nth j (chains msgs) d0) i) c (rz j i)).
  { intros c i Hi. apply (adv (chains msgs) n junk (proj1 (proj2 (proj2 (good_chains msgs HM))) ltac:(lia)) c j i). lia. }
  split; [apply (A CFinal 71%nat ltac:(lia))|].
  split; [etransitivity; [exact (A CIo 71%nat ltac:(lia))|]; unfold cell; rewrite (rz_round [] eq_refl) by lia; reflexivity|].
  split; [etransitivity; [exact (A CIo 70%nat ltac:(lia))|]; unfold cell; rewrite (rz_round [] eq_refl) by lia; reflexivity|].
  split; [|apply (A CLen 19%nat ltac:(lia))].
  apply map_ext_in. intros q Hq. apply in_seq in Hq. replace (4 + Z.of_nat q) with (Z.of_nat (4 + q)) by lia. rewrite A by lia.
  unfold cell. rewrite (rz_round [] eq_refl) by lia. rewrite (within_true (p:=p)) by lia. reflexivity.
Qed.
Theorem msg_cells k msg : nth_error msgs k = Some msg ->
  let i0 := Z.of_nat (offs msgs k) in let j := i0 + Z.of_nat (nblk msg) - 1 in
  one_input t i0 j /\ o_len (assigned_block t j) = of_Z p (Z.of_nat (length msg)) /\
  input_words t i0 (nblk msg) = map (of_Z p) (le_words (16 * nblk msg) msg) /\
  o_hi (assigned_block t j) = of_Z p (be_val (firstn 16 (sha256 msg))) /\ o_lo (assigned_block t j) = of_Z p (be_val (skipn 16 (sha256 msg))).
Proof.
  intros Hk. cbv zeta. assert (HMk : mok msg) by (apply (proj1 (Forall_forall _ _) HM); eapply nth_error_In; exact Hk).
  assert (Hpos : (0 < nblk msg)%nat) by (destruct HMk as [HB HL]; apply (msg_chain_ok msg HB HL)).
  assert (C : forall b, (b < nblk msg)%nat -> let d := nth b (msg_chain msg) d0 in let o := assigned_block t (Z.of_nat (offs msgs k) + Z.of_nat b) in
     o_final o = fbool (d_fin d) /\ o_lo o = of_Z p (d_limb d 71) /\ o_hi o = of_Z p (d_limb d 70) /\
     o_words o = map (fun q => of_Z p (v_word (drow d (4 + q)))) (seq 0 16) /\ o_len o = of_Z p (lenq d 16)).
  { intros b Hb. destruct (nth_chains msgs k msg b Hk Hb) as [H1 H2]. pose proof (out_cells _ H1) as O. cbv zeta in *. rewrite H2 in O.
    rewrite Nat2Z.inj_add in O. exact O. }
  assert (B := fun b Hb => chain_block msg b HMk Hb). cbv zeta in B. fold (nblk msg) in B.
  replace (Z.of_nat (offs msgs k) + Z.of_nat (nblk msg) - 1) with (Z.of_nat (offs msgs k) + Z.of_nat (nblk msg - 1)) by lia.
  destruct (C (nblk msg - 1)%nat ltac:(lia)) as (L1 & L2 & L3 & _ & L5). cbv zeta in *.
  destruct (B (nblk msg - 1)%nat ltac:(lia)) as (_ & N1 & N2 & N3 & _).
  assert (EF : d_fin (nth (nblk msg - 1) (msg_chain msg) d0) = true) by (rewrite N3; apply Nat.eqb_eq; lia).
  destruct (msg_chain_len msg) as (m & Hm & _ & Em & _). fold (nblk msg) in Em.
  split; [split; [|split]|split; [|split; [|split]]].
  - destruct k as [|k]; [left; reflexivity|]. destruct (nth_error msgs k) as [pm|] eqn:Ek.
    2: { apply nth_error_None in Ek. assert (nth_error msgs (S k) <> None) as N by congruence. apply nth_error_Some in N. lia. }
    right. rewrite (offs_S msgs k pm Ek).
    assert (HMp : mok pm) by (apply (proj1 (Forall_forall _ _) HM); eapply nth_error_In; exact Ek).
    assert (Pp : (0 < nblk pm)%nat) by (destruct HMp as [HB HL]; apply (msg_chain_ok pm HB HL)).
    destruct (nth_chains msgs k pm (nblk pm - 1) Ek ltac:(lia)) as [H1 H2]. pose proof (out_cells _ H1) as (O & _). rewrite H2 in O.
    replace (Z.of_nat (offs msgs k + nblk pm) - 1) with (Z.of_nat (offs msgs k + (nblk pm - 1))) by lia. rewrite O.
    destruct (chain_block pm (nblk pm - 1) HMp ltac:(unfold nblk in *; lia)) as (_ & _ & _ & E & _). rewrite E. fold (nblk pm).
    rewrite (proj2 (Nat.eqb_eq _ _)) by lia. reflexivity.
  - intros i Hi. replace i with (Z.of_nat (offs msgs k) + Z.of_nat (Z.to_nat (i - Z.of_nat (offs msgs k)))) by lia.
    destruct (C (Z.to_nat (i - Z.of_nat (offs msgs k)))) as (C1 & _); [lia|]. rewrite C1.
    destruct (B (Z.to_nat (i - Z.of_nat (offs msgs k)))) as (_ & _ & _ & E & _); [lia|]. rewrite E. rewrite (proj2 (Nat.eqb_neq _ _)) by lia. reflexivity.
  - rewrite L1, EF. reflexivity.
  - rewrite L5. f_equal. unfold lenq. rewrite N1, N2. f_equal. lia.
  - unfold input_words, le_words.
    rewrite (flat_map_const _ (fun q => of_Z p (le_val (map (fun x => nth (4 * q + x) msg 0) (seq 0 4)))) 16 (nblk msg)).
    + rewrite map_map. reflexivity.
    + intros b Hb. destruct (C b Hb) as (_ & _ & _ & C4 & _). rewrite C4. apply map_ext_in. intros q Hq. apply in_seq in Hq.
      destruct (B b Hb) as (K & B1 & B2 & _ & B5). rewrite word_of_row by (exact K || lia). f_equal. f_equal. apply map_ext_in. intros x Hx. apply in_seq in Hx.
      rewrite B1, B2. replace (4 * (16 * b + q) + x)%nat with (64 * b + 4 * q + x)%nat by lia.
      destruct (Nat.leb_spec (length msg) (64 * b + 4 * q + x)) as [G|G]; [rewrite nth_overflow by exact G; reflexivity|].
      rewrite B5 by lia. replace (64 * b + (4 * q + x))%nat with (64 * b + 4 * q + x)%nat by lia. unfold sha_pad. cbv zeta. now rewrite app_nth1 by exact G.
  - rewrite L3. f_equal. rewrite <- (msg_out msg (proj1 HMk)). fold (nblk msg). unfold d_limb, d_hash. rewrite EF. cbn [Nat.eqb]. reflexivity.
  - rewrite L2. f_equal. rewrite <- (msg_out msg (proj1 HMk)). fold (nblk msg). unfold d_limb, d_hash. rewrite EF. cbn [Nat.eqb]. reflexivity.
Qed.
End Out.
