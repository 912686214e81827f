(** The shard circuit of the Keccak component: packing of the loaded cells, lookup keys and published instances. *)
From Coq Require Import ZArith Znumtheory Lia List Bool Arith Ring.
From Verif Require Import Field Spec Context ContextProofs Utils Logic Gate GateProofs ChainProofs IPProofs BitProofs Derived Calc Range RangeProofs RangeProofs2
  SafeTypes SafeProofs SafeProofs2 Det PoseidonMds PoseidonSpec PoseidonOpt PoseidonOpt2 PoseidonChip PoseidonChipProofs PoseidonChipProofs2 PoseidonChipProofs3
  PoseidonHash PoseidonCompact KecSpec KeySpec KecCircuit KecClaim KecComp KecCompPure KecCompProofs.
Import ListNotations.
Local Open Scope nat_scope.
Local Open Scope monad_scope.

Lemma resize_map {A B} (f : A -> B) n x l : map f (resize n x l) = resize n (f x) (map f l).
Proof. unfold resize. rewrite map_app, map_length, firstn_map. f_equal. remember (n - length l) as k. clear. induction k; cbn; congruence. Qed.
Lemma in_resize {A} n (x : A) l y : In y (resize n x l) -> y = x \/ In y l.
Proof.
  unfold resize. rewrite in_app_iff. intros [H|H]; [right|left; now apply repeat_spec in H].
  rewrite <- (firstn_skipn n l). apply in_or_app. now left.
Qed.
Lemma resize_length {A} n (x : A) l : length (resize n x l) = n.
Proof. unfold resize. rewrite app_length, firstn_length, repeat_length. lia. Qed.
Lemma last_snoc {A} (l : list A) x d : last (l ++ [x]) d = x.
Proof. induction l as [|y l IH]; cbn; auto. destruct (l ++ [x]) eqn:E; auto. now destruct l. Qed.

Lemma last_cons {A} (l : list A) : forall x d, last (x :: l) d = last l x.
Proof. induction l as [|y l IH]; intros x d; auto. transitivity (last (y :: l) d); [reflexivity|]. now rewrite !IH. Qed.

Section KS.
Context {p : positive}.
Add Ring Fring : (F_ring p) (morphism (F_morph p), constants [Fcst]).
Notation Fp := (F p).
Notation AV := (AV p).
Notation nw := (KecCompPure.nw (p:=p)).
Hypothesis Hnw : 0 < nw /\ 18 mod nw = 0.

(** ** values *)
Definition lf_val (e : AV -> Fp) (l : loaded_f) : kloaded p := KLoaded (e (lf_left l)) (map e (lf_words l)) (e (lf_final l)) (e (lf_lo l)) (e (lf_hi l)).
Definition pack_vals (lst : Fp) (ld : kloaded p) : list Fp :=
  resize (2 * num_poseidon_absorb_per_keccak_f (p:=p)) F0
    (map (fun c => dot c (words_to_witness_multipliers (p:=p))) (chunks nw ((ld_left ld * lst)%F :: ld_words ld))).
Fixpoint pack_rows (lst : Fp) (lds : list (kloaded p)) : list (list Fp * bool) := match lds with
  | [] => []
  | ld :: r => (pack_vals lst ld, negb (Feqb (ld_final ld) F0)) :: pack_rows (ld_final ld) r
  end.
Lemma pack_rows_snoc lds : forall lst ld, pack_rows lst (lds ++ [ld]) =
  pack_rows lst lds ++ [(pack_vals (last (map (@ld_final p) lds) lst) ld, negb (Feqb (ld_final ld) F0))].
Proof.
  induction lds as [|x lds IH]; intros lst ld; cbn [app pack_rows map]; auto. rewrite IH, last_cons. reflexivity.
Qed.
Definition sel (a b c : Fp) : Fp := ((a - b) * c + b)%F.
Definition final_out (dummy : output Fp) (k : Fp) (ld : kloaded p) : output Fp :=
  (sel k (fst (fst dummy)) (ld_final ld), sel (ld_lo ld) (snd (fst dummy)) (ld_final ld), sel (ld_hi ld) (snd dummy) (ld_final ld)).
Definition final_outs (h : list Fp -> Fp) (dummy : output Fp) (buf : list Fp) (lst : Fp) (lds : list (kloaded p)) : list (output Fp) :=
  map (fun kl => final_out dummy (fst kl) (snd kl)) (combine (chunk_hashes h buf (pack_rows lst lds)) lds).

(** a block of a message is packed as specified *)
Lemma nw_absorb : 2 * num_poseidon_absorb_per_keccak_f (p:=p) = block_elements nw + (if Nat.odd (block_elements nw) then 1 else 0) /\ block_elements nw * nw = 18.
Proof.
  unfold num_poseidon_absorb_per_keccak_f, num_witness_per_keccak_f, block_elements. destruct Hnw as [H0 H]. unfold KecCompPure.nw in *.
  clear Hnw. revert H0 H. generalize (num_word_per_witness (p:=p)). intros n H0 H.
  assert (n <= 18). { destruct (Nat.le_gt_cases n 18); auto. rewrite Nat.mod_small in H by lia. lia. }
  do 19 (destruct n as [|n]; [first [lia|discriminate|split; reflexivity]|]). lia.
Qed.
Lemma pack_block msg b lst (ld : kloaded p) :
  (ld_left ld * lst)%F = of_Z p (if b =? 0 then Z.of_nat (length msg) else 0%Z) ->
  ld_words ld = map (fun t => of_Z p (le_bytes (firstn 8 (skipn (136 * b + 8 * t) msg)))) (seq 0 17) ->
  pack_vals lst ld = key_block p nw msg b.
Proof.
  intros HL HW. unfold pack_vals, key_block. destruct nw_absorb as [EA EB].
  assert (E : (ld_left ld * lst)%F :: ld_words ld = map (of_Z p) (key_words msg b)).
  { unfold key_words. cbn [map]. rewrite HL, HW, map_map. f_equal. }
  rewrite E, chunks_map, map_map, elements_eq by (auto using key_words_length; apply Hnw). rewrite EA. clear E.
  assert (LE : length (key_elements p nw (key_words msg b)) = block_elements nw) by (unfold key_elements; now rewrite map_length, seq_length).
  rewrite resize_buffer by lia. unfold buffer. rewrite LE. f_equal. destruct (Nat.odd (block_elements nw)).
  - replace (block_elements nw + 1 - block_elements nw) with 1 by lia. reflexivity.
  - replace (block_elements nw + 0 - block_elements nw) with 0 by lia. reflexivity.
Qed.

(** the outputs of the blocks of a message *)
Hypothesis Hp : prime (Z.pos p).
Lemma sel_1 a b : sel a b F1 = a. Proof. unfold sel. ring. Qed.
Lemma sel_0 a b : sel a b F0 = b. Proof. unfold sel. ring. Qed.
Lemma bool_1 : negb (Feqb (@F1 p) F0) = true. Proof. apply negb_true_iff, Feqb_neq, F1_neq_0, Hp. Qed.
Lemma bool_0 : negb (Feqb (@F0 p) F0) = false. Proof. apply negb_false_iff. now apply Feqb_eq. Qed.
Lemma group_outs h dummy msg lo hi rest : forall n i (lds : list (kloaded p)) lst, length msg / 136 - i = n -> i <= length msg / 136 ->
  length lds = S n -> lst = (if i =? 0 then F1 else F0) ->
  (forall j ld, nth_error lds j = Some ld ->
    ld_left ld = of_Z p (Z.of_nat (length msg) - 136 * Z.of_nat (i + j)) /\
    ld_words ld = map (fun t => of_Z p (le_bytes (firstn 8 (skipn (136 * (i + j) + 8 * t) msg)))) (seq 0 17) /\
    ld_final ld = of_Z p (if Nat.eqb (i + j) (length msg / 136) then 1 else 0) /\
    (i + j = (length msg / 136)%nat -> ld_lo ld = of_Z p lo /\ ld_hi ld = of_Z p hi)) ->
  final_outs h dummy (flat_map (key_block p nw msg) (seq 0 i)) lst (lds ++ rest) =
  repeat dummy n ++ (h (key_input p nw msg), of_Z p lo, of_Z p hi) :: final_outs h dummy [] F1 rest.
Proof.
  induction n as [|n IH]; intros i lds lst En Hi Hl Hlst HD; destruct lds as [|ld lds]; try discriminate.
  - destruct lds; [|discriminate]. destruct (HD 0 ld eq_refl) as (D1 & D2 & D3 & D4). rewrite Nat.add_0_r in *.
    assert (Ei : i = length msg / 136) by lia. rewrite (proj2 (Nat.eqb_eq _ _) Ei) in D3. destruct (D4 Ei) as [D5 D6]. change (of_Z p 1) with (@F1 p) in D3.
    unfold final_outs. cbn [app pack_rows chunk_hashes combine map fst snd repeat]. rewrite D3, bool_1. f_equal.
    unfold final_out. rewrite D3, !sel_1, D5, D6. do 2 f_equal. f_equal. unfold key_input. rewrite <- Ei, seq_S, flat_map_app. cbn [Nat.add flat_map]. rewrite app_nil_r. f_equal.
    apply pack_block; auto. rewrite D1, Hlst. destruct (Nat.eqb_spec i 0) as [->|].
    + rewrite <- of_Z_1, <- of_Z_mul. f_equal. lia.
    + change (@F0 p) with (of_Z p 0). rewrite <- of_Z_mul. f_equal. lia.
  - destruct (HD 0 ld eq_refl) as (D1 & D2 & D3 & _). rewrite Nat.add_0_r in *.
    assert (Ei : i <> length msg / 136) by lia. rewrite (proj2 (Nat.eqb_neq _ _) Ei) in D3. change (of_Z p 0) with (@F0 p) in D3.
    unfold final_outs. cbn [app pack_rows chunk_hashes combine map fst snd repeat]. rewrite D3, bool_0. f_equal.
    { unfold final_out. rewrite D3, !sel_0. now destruct dummy as [[? ?] ?]. }
    replace (flat_map (key_block p nw msg) (seq 0 i) ++ pack_vals lst ld) with (flat_map (key_block p nw msg) (seq 0 (S i))).
    + apply (IH (S i) lds F0); try lia; auto.
      intros j ld' Hj. specialize (HD (S j) ld' Hj). replace (i + S j) with (S i + j) in HD by lia. exact HD.
    + rewrite seq_S, flat_map_app. cbn [Nat.add flat_map]. rewrite app_nil_r. f_equal. symmetry.
      apply pack_block; auto. rewrite D1, Hlst. destruct (Nat.eqb_spec i 0) as [->|].
      * rewrite <- of_Z_1, <- of_Z_mul. f_equal. lia.
      * change (@F0 p) with (of_Z p 0). rewrite <- of_Z_mul. f_equal. lia.
Qed.
(** what the blocks of a list of messages say: message, low and high halves of the digest *)
Definition declared_output (h : list Fp -> Fp) (d : list Z * Z * Z) : output Fp := (h (key_input p nw (fst (fst d))), of_Z p (snd (fst d)), of_Z p (snd d)).
Theorem groups_outs h dummy : forall (groups : list (list (kloaded p))) (ds : list (list Z * Z * Z)),
  Forall2 (fun g d => kdeclares g (fst (fst d)) (snd (fst d)) (snd d)) groups ds ->
  final_outs h dummy [] F1 (concat groups) = flat_map (fun d => repeat dummy (length (fst (fst d)) / 136) ++ [declared_output h d]) ds.
Proof.
  induction 1 as [|g [[msg lo] hi] groups ds HD _ IH]; [reflexivity|]. cbn [concat flat_map fst snd] in *. destruct HD as [HL HD].
  pose proof (group_outs h dummy msg lo hi (concat groups) (length msg / 136) 0 g F1) as G. cbn [seq flat_map Nat.add] in G.
  rewrite G; auto; [|lia|lia]. rewrite IH, <- app_assoc. reflexivity.
Qed.

(** ** the circuits *)
Variable lb : nat.
Notation sound := (sound lb).
Notation comp := (comp lb).
Notation calc := (calc lb).
Definition lf_cells (l : loaded_f) : list AV := lf_left l :: lf_final l :: lf_lo l :: lf_hi l :: lf_words l.
Definition row_cells (r : list (list AV) * AV) : list AV := snd r :: concat (fst r).
Definition st_cells (b : AV * list (list (list AV) * AV)) : list AV := fst b :: flat_map row_cells (snd b).

Lemma pack_step_calc L (Pre : env -> Prop) zero st lf : incl (lf_cells lf) L -> In zero L -> incl (st_cells st) L -> length (lf_words lf) = 17 ->
  (forall e, Pre e -> e zero = F0) ->
  calc L Pre (pack_step zero st lf) (fun o => exists r, snd o = snd st ++ [r] /\ fst o = lf_final lf /\ snd r = lf_final lf /\ Forall (fun x => length x = 2) (fst r))
    (fun e o => map (ch_row e) (snd o) = map (ch_row e) (snd st) ++ [(pack_vals (e (fst st)) (lf_val e lf), negb (Feqb (e (lf_final lf)) F0))]) st_cells.
Proof.
  intros Hlf Hz Hst L17 HPre. unfold pack_step. destruct nw_absorb as [EA EB].
  eapply calc_bind; [apply calc_mul; cbn [qin]; [apply Hlf; now left|apply Hst; now left]|]. intros len _. cbv beta.
  assert (CH : forall c, In c (chunks nw (len :: lf_words lf)) -> length c = nw).
  { intros c Hc. apply (chunk_length_exact nw (block_elements nw) (len :: lf_words lf)); auto; [apply Hnw|cbn [length]; lia]. }
  eapply calc_bind.
  { apply (calc_mapM_fn lb _ _ _ (fun e c => dot (map e c) (words_to_witness_multipliers (p:=p)))). intros c Hc. fold nw in *.
    rewrite resize_id by (apply CH; exact Hc). apply ip_calc.
    - rewrite mults_length by auto. auto.
    - intros a Ha. pose proof (in_chunks _ _ _ _ Hc Ha) as H. destruct H as [<-|H]; apply in_or_app; [left; now left|right].
      apply Hlf. unfold lf_cells. cbn [In]. auto. }
  intros data Ldata. cbv beta in Ldata. apply calc_ret.
  - eexists. cbn [fst snd]. split; [reflexivity|]. split; [reflexivity|]. split; [reflexivity|]. apply Forall_forall. intros x Hx.
    apply (chunk_length_exact 2 (num_poseidon_absorb_per_keccak_f (p:=p)) (resize (2 * num_poseidon_absorb_per_keccak_f (p:=p)) zero data)); [lia|rewrite resize_length; lia|exact Hx].
  - unfold st_cells. cbn [fst snd]. rewrite flat_map_app. cbn [flat_map]. rewrite app_nil_r. intros a Ha. cbn [In] in Ha. rewrite in_app_iff in Ha.
    destruct Ha as [<-|[Ha|Ha]].
    + rewrite !in_app_iff. right. right. apply Hlf. right. now left.
    + rewrite !in_app_iff. right. right. apply Hst. now right.
    + unfold row_cells in Ha. cbn [fst snd] in Ha. destruct Ha as [<-|Ha].
      * rewrite !in_app_iff. right. right. apply Hlf. right. now left.
      * rewrite concat_chunks in Ha by lia. apply in_resize in Ha as [->|Ha]; rewrite !in_app_iff; auto.
  - intros e [[HP El] Ed]. cbn [snd]. rewrite map_app. f_equal. cbn [map]. unfold ch_row. cbn [fst snd]. rewrite concat_chunks by lia. do 2 f_equal.
    unfold pack_vals, lf_val. cbn [ld_left ld_words]. rewrite resize_map, (HPre e HP), Ed. f_equal.
    cbn [qe] in El. rewrite <- El. change (e len :: map e (lf_words lf)) with (map e (len :: lf_words lf)). rewrite chunks_map, map_map. reflexivity.
Qed.

Lemma pack_inputs_calc L (Pre : env -> Prop) (lfs : list (loaded_f (p:=p))) : incl (flat_map lf_cells lfs) L -> Forall (fun l => length (lf_words l) = 17) lfs ->
  calc L Pre (pack_inputs_from_keccak_fs lfs)
    (fun o => Forall (fun r => Forall (fun x => length x = 2) (fst r)) o /\ map snd o = map lf_final lfs)
    (fun e o => map (ch_row e) o = pack_rows F1 (map (lf_val e) lfs)) (flat_map row_cells).
Proof.
  intros Hi HF. unfold pack_inputs_from_keccak_fs. rewrite Forall_forall in HF.
  eapply calc_bind; [apply calc_load_constant|]. intros one_c _.
  eapply calc_bind; [apply calc_load_zero|]. intros zero _. cbv beta.
  eapply calc_bind.
  - apply (calc_foldM lb _ _ _ (fun done b => Forall (fun r => Forall (fun x => length x = 2) (fst r)) (snd b) /\ map snd (snd b) = map lf_final done /\
        fst b = last (map lf_final done) one_c)
      (fun e done b => e one_c = F1 /\ map (ch_row e) (snd b) = pack_rows F1 (map (lf_val e) done)) st_cells).
    + intros done lf rest b El (Hb1 & Hb2 & Hb3). assert (Hin : In lf lfs) by (rewrite El; apply in_or_app; right; now left).
      eapply calc_post; [apply (pack_step_calc _ _ zero b lf)| |].
      * intros a Ha. apply in_or_app. right. apply in_or_app. right. apply in_or_app. right. apply Hi. apply in_flat_map. eauto.
      * apply in_or_app. right. apply in_or_app. left. now left.
      * intros a Ha. apply in_or_app. now left.
      * auto.
      * intros e [[_ Ez] _]. exact Ez.
      * cbv beta. intros o (r & E1 & E2 & E3 & E4). rewrite E1, E2. split; [apply Forall_app; split; auto|]. rewrite !map_app, Hb2. cbn [map]. rewrite E3.
        split; auto. now rewrite last_snoc.
      * cbv beta. intros e o _ [_ [J1 J2]] ->. split; auto. rewrite map_app. cbn [map]. rewrite pack_rows_snoc, J2. do 4 f_equal.
        rewrite Hb3, <- J1, map_map. clear. induction done as [|x done IH]; cbn [map last]; auto. destruct done; auto.
    + cbn. auto.
    + intros e [[_ E1] _]. cbn. auto.
    + unfold st_cells. cbn [fst snd flat_map]. intros a [<-|[]]. apply in_or_app. right. apply in_or_app. left. now left.
  - intros r (H1 & H2 & _). apply calc_ret; auto.
    + intros a Ha. apply in_or_app. left. now right.
    + intros e [_ [_ E]]. exact E.
Qed.

Variable sp : opt_spec (p:=p).
Hypothesis HW : wf_spec 3 sp.
Notation nhash := (nhash 3 2 sp).
Notation consts_ok := (consts_ok 3 2 sp).
Local Lemma H32 : 3 = S 2. Proof. reflexivity. Qed.
Local Lemma H2 : 0 < 2. Proof. lia. Qed.
Definition finals_bool (lfs : list (loaded_f (p:=p))) (e : AV -> Fp) : Prop := forall l, In l lfs -> e (lf_final l) = F0 \/ e (lf_final l) = F1.

Lemma in_map_snd {A B C} (rows : list (A * B)) (lfs : list C) (f : C -> B) r : map snd rows = map f lfs -> In r rows -> exists l, In l lfs /\ snd r = f l.
Proof. intros E H. apply (in_map snd) in H. rewrite E in H. apply in_map_iff in H as (l & El & Hl). exists l. auto. Qed.
Lemma keys_calc L (Pre : env -> Prop) c (lfs : list (loaded_f (p:=p))) : incl (c2 c) L -> length (fst c) = 3 -> incl (flat_map lf_cells lfs) L ->
  Forall (fun l => length (lf_words l) = 17) lfs -> (forall e, Pre e -> consts_ok c e /\ finals_bool lfs e) ->
  calc L Pre (encode_inputs_from_keccak_fs c sp lfs) (fun o => length o = length lfs)
    (fun e o => map e o = chunk_hashes nhash [] (pack_rows F1 (map (lf_val e) lfs))) self.
Proof.
  intros Hc HT Hi HF HPre. unfold encode_inputs_from_keccak_fs.
  eapply calc_bind; [apply pack_inputs_calc; auto|]. cbv beta. intros rows [HR HS].
  eapply calc_post; [apply (hash_chunks_calc lb Hp 3 2 H32 H2 sp HW _ (fun e => Pre e /\ map (ch_row e) rows = pack_rows F1 (map (lf_val e) lfs)) c rows)| |]; auto.
  - intros a Ha. apply in_or_app. right. apply Hc. now right.
  - intros r Hr. rewrite Forall_forall in HR. split; auto. intros a Ha. apply in_or_app. left. apply in_flat_map. exists r. split; auto.
  - intros e [HP _]. destruct (HPre e HP) as [[HC _] HB]. split; auto. intros r Hr. destruct (in_map_snd _ _ _ _ HS Hr) as (l & Hl & ->). auto.
  - cbv beta. intros o ->. transitivity (length (map snd rows)); [now rewrite map_length|]. now rewrite HS, map_length.
  - cbv beta. intros e o _ [_ E] ->. now rewrite E.
Qed.

Definition out_val (e : AV -> Fp) (o : output AV) : output Fp := (e (fst (fst o)), e (snd (fst o)), e (snd o)).
Lemma outputs_calc L (Pre : env -> Prop) dummy (keys : list AV) (lfs : list (loaded_f (p:=p))) : incl keys L -> incl (flat_map lf_cells lfs) L -> length keys = length lfs ->
  calc L Pre (generate_circuit_final_outputs dummy keys lfs) (fun o => length o = length lfs)
    (fun e o => map (out_val e) o = map (fun kl => final_out dummy (fst kl) (snd kl)) (combine (map e keys) (map (lf_val e) lfs))) (flat_map flat_output).
Proof.
  intros Hk Hi HL. unfold generate_circuit_final_outputs.
  eapply calc_bind; [apply calc_load_constant|]. intros dk _.
  eapply calc_bind; [apply calc_load_constant|]. intros dl _.
  eapply calc_bind; [apply calc_load_constant|]. intros dh _. cbv beta.
  apply calc_assert_bind; [now apply Nat.eqb_eq|].
  eapply calc_post; [apply (calc_mapM lb _ _ _ (fun _ _ => True) (fun e kl o => out_val e o = final_out dummy (e (fst kl)) (lf_val e (snd kl))) flat_output)| |].
  - intros [k lf] Hkl. cbn [fst snd]. assert (Hk' : In k L) by (apply Hk; eapply in_combine_l; eauto).
    assert (Hlf : incl (lf_cells lf) L). { intros a Ha. apply Hi. apply in_flat_map. exists lf. split; auto. eapply in_combine_r; eauto. }
    assert (M1 : In (lf_final lf) L) by (apply Hlf; right; now left). assert (M2 : In (lf_lo lf) L) by (apply Hlf; right; right; now left).
    assert (M3 : In (lf_hi lf) L) by (apply Hlf; right; right; right; now left).
    eapply calc_bind; [apply calc_select; cbn [qin]; rewrite ?in_app_iff; unfold one; cbn [In]; auto 10|]. intros key _.
    eapply calc_bind; [apply calc_select; cbn [qin]; rewrite ?in_app_iff; unfold one; cbn [In]; auto 10|]. intros lo _.
    eapply calc_bind; [apply calc_select; cbn [qin]; rewrite ?in_app_iff; unfold one; cbn [In]; auto 10|]. intros hi _. cbv beta. apply calc_ret; auto.
    + unfold flat_output. cbn [fst snd]. intros a Ha. cbn [In] in Ha. rewrite !in_app_iff. unfold one. cbn [In]. destruct Ha as [<-|[<-|[<-|[]]]]; auto 10.
    + intros e HH.
      destruct HH as [[[[[[_ E1] E2] E3] E4] E5] E6]. cbn [qe] in *. unfold out_val, final_out, lf_val, sel. cbn [fst snd ld_final ld_lo ld_hi].
      now rewrite E4, E5, E6, E1, E2, E3.
  - cbv beta. intros o HF. rewrite <- (Forall2_len _ _ _ HF), combine_length. lia.
  - cbv beta. intros e o _ _ HF. apply Forall2_map_eq in HF. rewrite HF. clear. revert lfs. induction keys as [|k keys IH]; intros [|l lfs]; cbn [combine map fst snd]; auto. now rewrite IH.
Qed.

(** the instances, on values *)
Definition instances_of (h : list Fp -> Fp) (raw : bool) (outs : list (output Fp)) : list (list Fp) :=
  if raw then [map (fun o => fst (fst o)) outs; map (fun o => snd (fst o)) outs; map snd outs] else [[h (flat_map flat_output outs)]].
Lemma shard_calc (Pre : env -> Prop) dummy capacity raw (lfs : list (loaded_f (p:=p))) : length lfs = capacity -> Forall (fun l => length (lf_words l) = 17) lfs ->
  (forall e, Pre e -> finals_bool lfs e) ->
  calc (flat_map lf_cells lfs) Pre (shard_instances dummy sp capacity raw lfs) (fun _ => True)
    (fun e o => map (map e) o = instances_of nhash raw (final_outs nhash dummy [] F1 (map (lf_val e) lfs))) (@concat AV).
Proof.
  intros Hcap HF HPre. unfold shard_instances.
  eapply calc_bind; [apply (hasher_consts_calc lb 3 2 H32 H2 sp HW)|]. cbv beta. intros c Hc.
  eapply calc_bind; [apply (keys_calc _ _ c lfs)|]; auto.
  { intros a Ha. apply in_or_app. now left. } { intros a Ha. apply in_or_app. now right. } { intros e [HP HC]. split; auto. }
  cbv beta. intros keys Lk.
  eapply calc_bind; [apply (outputs_calc _ _ dummy keys lfs)|]; auto.
  { intros a Ha. apply in_or_app. now left. } { intros a Ha. rewrite !in_app_iff. auto. }
  cbv beta. intros outs Lo. apply calc_assert_bind; [apply Nat.eqb_eq; lia|].
  set (PR := fun e : env => ((Pre e /\ consts_ok c e) /\ map e keys = chunk_hashes nhash [] (pack_rows F1 (map (lf_val e) lfs))) /\
     map (out_val e) outs = map (fun kl => final_out dummy (fst kl) (snd kl)) (combine (map e keys) (map (lf_val e) lfs))).
  assert (EO : forall e, PR e -> map (out_val e) outs = final_outs nhash dummy [] F1 (map (lf_val e) lfs)).
  { intros e [[_ E1] E2]. rewrite E2, E1. reflexivity. }
  assert (EF : forall e, map e (flat_map flat_output outs) = flat_map flat_output (map (out_val e) outs)).
  { intros e. clear. induction outs as [|o outs IH]; auto. cbn [flat_map map]. rewrite map_app, IH. reflexivity. }
  destruct raw.
  - apply calc_ret; auto.
    + cbn [concat]. rewrite app_nil_r. intros a Ha. apply in_or_app. left. apply in_flat_map. rewrite !in_app_iff in Ha.
      destruct Ha as [Ha|[Ha|Ha]]; apply in_map_iff in Ha as (o & <- & Ho); exists o; split; auto; unfold flat_output; cbn [In]; auto.
    + intros e HE. unfold instances_of. rewrite <- (EO e HE). cbn [map]. rewrite !map_map. reflexivity.
  - eapply calc_bind with (P1 := fun _ => True) (R1 := fun e o => e o = nhash (flat_map flat_output (map (out_val e) outs))) (c1 := one).
    + eapply calc_post; [eapply calc_mono; [apply (hash_fix_calc lb 3 2 H32 H2 sp HW (flat_map flat_output outs ++ self keys ++ c2 c ++ flat_map lf_cells lfs) PR c (flat_map flat_output outs))| |]|auto|]; auto.
      * intros a Ha. rewrite !in_app_iff. auto.
      * intros a Ha. rewrite !in_app_iff. auto.
      * apply incl_refl.
      * intros e HE. split; [exact HE|]. apply HE.
      * cbv beta. intros e o _ _ ->. now rewrite EF.
    + intros o _. apply calc_ret; auto.
      * intros a Ha. cbn [concat app In] in Ha. destruct Ha as [<-|[]]. now left.
      * intros e [HE Eo]. unfold instances_of. cbn [map]. rewrite Eo. now rewrite <- (EO e HE).
Qed.
End KS.
