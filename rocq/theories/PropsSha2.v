(** Completeness of the SHA-256 circuit: the generated witness satisfies every gate and carries the digests. *)
From Coq Require Import ZArith Lia List Bool Ring Znumtheory.
From Verif Require Import Field Spec ShaSpec ShaCircuit ShaBits ShaEval ShaRows ShaBlock ShaPad ShaMsg PropsSha ShaWitness ShaGen ShaComp ShaGen2 ShaOut.
Import ListNotations.
Local Open Scope Z_scope.

(** ** Specification vocabulary *)
(** the blocks used by a list of inputs *)
Fixpoint total_blocks (msgs : list (list Z)) : Z :=
  match msgs with [] => 0 | m :: msgs => num_blocks (Z.of_nat (length m)) + total_blocks msgs end.

Lemma nblk_eq msg : Z.of_nat (nblk msg) = num_blocks (Z.of_nat (length msg)).
Proof. destruct (msg_chain_len msg) as (n & _ & _ & E & EN & _). unfold nblk, num_blocks. rewrite E, EN. reflexivity. Qed.
Lemma chains_total msgs : Z.of_nat (length (chains msgs)) = total_blocks msgs.
Proof.
  unfold chains. induction msgs as [|m msgs IH]; [reflexivity|]. cbn [flat_map total_blocks]. rewrite app_length, Nat2Z.inj_add, IH.
  f_equal. exact (nblk_eq m).
Qed.
Lemma mok_of msgs : Forall bytes msgs -> Forall (fun m => 8 * Z.of_nat (length m) < 2 ^ 32) msgs -> Forall mok msgs.
Proof. intros H1 H2. rewrite Forall_forall in *. intros m Hm. split; [exact (H1 m Hm)|]. specialize (H2 m Hm). cbv beta in H2. lia. Qed.
Lemma firstn_app_l {A} (l m : list A) k : (k <= length l)%nat -> firstn k (l ++ m) = firstn k l.
Proof. intros H. rewrite firstn_app. replace (k - length l)%nat with 0%nat by lia. cbn [firstn]. apply app_nil_r. Qed.
Local Opaque sha256.

(** For every field, every list of byte strings shorter than 2^29 bytes, every capacity that does not overflow and every table with
    enough rows: the assigned table satisfies all the gates, whatever its other cells hold, and the cells handed out for each
    input, in order, hold the input's length, its words and its SHA-256 digest. *)
Theorem C65_sha256_complete {p} n junk msgs cap vs :
  Forall bytes msgs -> Forall (fun m => 8 * Z.of_nat (length m) < 2 ^ 32) msgs ->
  generate_witnesses_multi_sha256 msgs cap = Some vs -> Z.of_nat (length vs) <= n ->
  let t : table p := assigned_table n junk vs in
  let nb := match cap with None => total_blocks msgs | Some c => Z.of_nat c end in
  Z.of_nat (length vs) = SHA_ROWS * nb /\ rows t = n /\ fixed_assigned t nb /\ satisfies t sha_gates /\
  forall k msg, nth_error msgs k = Some msg ->
    let i0 := total_blocks (firstn k msgs) in let m := num_blocks (Z.of_nat (length msg)) in let j := i0 + m - 1 in
    0 <= i0 <= j /\ j < nb /\ one_input t i0 j /\
    o_len (assigned_block t j) = of_Z p (Z.of_nat (length msg)) /\
    input_words t i0 (Z.to_nat m) = map (of_Z p) (le_words (16 * Z.to_nat m) msg) /\
    o_hi (assigned_block t j) = of_Z p (be_val (firstn 16 (sha256 msg))) /\
    o_lo (assigned_block t j) = of_Z p (be_val (skipn 16 (sha256 msg))).
Proof.
  intros H1 H2 EG Hn. pose proof (mok_of msgs H1 H2) as HM. pose proof (multi_chain msgs cap HM) as MC. rewrite EG in MC.
  destruct MC as (k0 & -> & Hc). set (all := msgs ++ repeat [] k0) in *.
  assert (HA : Forall mok all).
  { apply Forall_app. split; [exact HM|]. apply Forall_forall. intros x Hx. apply repeat_spec in Hx. subst x. exact mok_nil. }
  cbv zeta. set (nb := match cap with None => total_blocks msgs | Some c => Z.of_nat c end).
  assert (ENB : Z.of_nat (length (chains all)) = nb).
  { unfold nb. destruct cap as [c|]; [destruct Hc as [_ ->]; reflexivity|]. subst k0. unfold all. cbn [repeat]. rewrite app_nil_r. apply chains_total. }
  rewrite drows_len in Hn |- *.
  assert (Hn' : SHA_ROWS * Z.of_nat (length (chains all)) <= n) by (unfold SHA_ROWS; lia).
  split; [rewrite <- ENB; unfold SHA_ROWS; lia|]. split; [reflexivity|].
  split; [|split; [exact (t_sat all n junk HA Hn')|]].
  - intros c r Hr. unfold assigned_table. cbn [fixc]. rewrite drows_len.
    replace (Z.of_nat (72 * length (chains all))) with (SHA_ROWS * nb) by (rewrite <- ENB; unfold SHA_ROWS; lia). reflexivity.
  - intros k msg Hk. assert (Hk' : nth_error all k = Some msg).
    { unfold all. rewrite nth_error_app1; [exact Hk|]. apply nth_error_Some. rewrite Hk. discriminate. }
    assert (HL : (k < length msgs)%nat) by (apply nth_error_Some; rewrite Hk; discriminate).
    pose proof (msg_cells all n junk HA k msg Hk') as MCe. cbv zeta in MCe.
    assert (EO : Z.of_nat (offs all k) = total_blocks (firstn k msgs)).
    { unfold offs, all. rewrite firstn_app_l by lia. apply chains_total. }
    assert (HP : (0 < nblk msg)%nat).
    { assert (K : mok msg) by (apply (proj1 (Forall_forall _ _) HM); eapply nth_error_In; exact Hk). destruct K as [KB KL]. apply (msg_chain_ok msg KB KL). }
    destruct (nth_chains all k msg (nblk msg - 1) Hk' ltac:(lia)) as [HB _].
    rewrite EO, nblk_eq in MCe. rewrite <- nblk_eq in MCe |- *. rewrite Nat2Z.id.
    split; [lia|]. split; [lia|]. exact MCe.
Qed.
(** Over capacity is the only panic, and it happens exactly when the inputs need more blocks than the capacity. *)
Theorem C65_capacity msgs cap :
  Forall bytes msgs -> Forall (fun m => 8 * Z.of_nat (length m) < 2 ^ 32) msgs ->
  (generate_witnesses_multi_sha256 msgs cap = None <-> exists c, cap = Some c /\ Z.of_nat c < total_blocks msgs).
Proof.
  intros H1 H2. pose proof (multi_chain msgs cap (mok_of msgs H1 H2)) as MC. rewrite <- chains_total.
  destruct (generate_witnesses_multi_sha256 msgs cap) as [vs|].
  - destruct MC as (k & _ & Hc). split; [discriminate|]. intros (c & -> & Hlt). destruct Hc as [Hc _]. lia.
  - destruct MC as (c & -> & Hlt). split; [|reflexivity]. intros _. exists c. split; [reflexivity|]. lia.
Qed.
(** The helper that sizes the circuit counts exactly the blocks used, and the capacity computed from a number of rows fits in it. *)
Theorem C65_sizes : (forall len, 0 <= len -> get_num_sha2_blocks len = num_blocks len) /\
  (forall rows, 0 <= rows -> SHA_ROWS * get_sha2_capacity rows <= rows < SHA_ROWS * (get_sha2_capacity rows + 1)).
Proof.
  split.
  - intros len Hl. unfold get_num_sha2_blocks, num_blocks. replace (len + 9 + 63) with (len + 8 + 1 * 64) by lia. now rewrite Z.div_add by lia.
  - intros r Hr. unfold get_sha2_capacity, SHA_ROWS. pose proof (Z.div_mod r 72 ltac:(lia)). pose proof (Z.mod_pos_bound r 72 ltac:(lia)). lia.
Qed.

(** Three inputs ("abc", the empty string, 60 zero bytes: two blocks) in a circuit of five blocks: a table that meets the
    hypotheses of C63 and C65, with a filler block at the end. *)
Example C65_example {p} (junk : acol -> Z -> F p) : exists vs,
  generate_witnesses_multi_sha256 [[97; 98; 99]; []; repeat 0 60] (Some 5%nat) = Some vs /\
  let t := assigned_table 400 junk vs in
  fixed_assigned t 5 /\ satisfies t sha_gates /\ one_input t 0 0 /\ one_input t 1 1 /\ one_input t 2 3 /\
  o_hi (assigned_block t 0) = of_Z p (be_val (firstn 16 (sha256 [97; 98; 99]))) /\
  o_lo (assigned_block t 3) = of_Z p (be_val (skipn 16 (sha256 (repeat 0 60)))).
Proof.
  assert (HB : Forall bytes [[97; 98; 99]; []; repeat 0 60]).
  { constructor; [repeat constructor; lia|]. constructor; [constructor|]. constructor; [|constructor]. apply Forall_forall. intros x Hx. apply repeat_spec in Hx. lia. }
  assert (HL : Forall (fun m => 8 * Z.of_nat (length m) < 2 ^ 32) [[97; 98; 99]; []; repeat 0 60]) by (repeat constructor).
  destruct (generate_witnesses_multi_sha256 _ _) as [vs|] eqn:E.
  2:{ apply (C65_capacity _ _ HB HL) in E. destruct E as (c & Ec & Hc). injection Ec as <-. cbn in Hc. lia. }
  exists vs. split; [reflexivity|]. cbv zeta.
  assert (EL : Z.of_nat (length vs) = SHA_ROWS * 5).
  { pose proof (multi_chain _ (Some 5%nat) (mok_of _ HB HL)) as MC. rewrite E in MC. destruct MC as (k & -> & _ & EC). rewrite drows_len, EC. reflexivity. }
  destruct (C65_sha256_complete (p:=p) 400 junk _ _ vs HB HL E) as (_ & _ & HF & HS & HC); [rewrite EL; unfold SHA_ROWS; lia|].
  split; [exact HF|]. split; [exact HS|].
  pose proof (HC 0%nat _ eq_refl) as (_ & _ & A1 & _ & _ & A5 & _). pose proof (HC 1%nat _ eq_refl) as (_ & _ & B1 & _).
  pose proof (HC 2%nat _ eq_refl) as (_ & _ & D1 & _ & _ & _ & D6).
  split; [exact A1|]. split; [exact B1|]. split; [exact D1|]. split; [exact A5|exact D6].
Qed.
