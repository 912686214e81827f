(** Properties of the SHA-256 circuit. *)
From Coq Require Import ZArith Lia List Bool Ring Znumtheory.
From Verif Require Import Field Spec ShaSpec ShaCircuit ShaBits ShaEval ShaRows ShaBlock ShaPad ShaMsg.
Import ListNotations.
Local Open Scope Z_scope.

(** ** Specification vocabulary *)
Definition bytes (l : list Z) : Prop := Forall (fun x => 0 <= x < 256) l.
(** the first [n] little-endian 32-bit words of a byte string continued with zeros *)
Definition le_words (n : nat) (msg : list Z) : list Z :=
  map (fun q => le_val (map (fun k => nth (4 * q + k) msg 0) (seq 0 4))) (seq 0 n).
(** the number of 64-byte blocks of the padded message (one 1-bit and a 64-bit length are appended) *)
Definition num_blocks (len : Z) : Z := (len + 9 + 63) / 64.
(** blocks [i0 .. j] are one input: block [i0] starts afresh, [j] is the first final block from there on *)
Definition one_input {p} (t : table p) (i0 j : Z) : Prop :=
  (i0 = 0 \/ o_final (assigned_block t (i0 - 1)) = F1) /\
  (forall k, i0 <= k < j -> o_final (assigned_block t k) = F0) /\
  o_final (assigned_block t j) = F1.
Definition input_words {p} (t : table p) (i0 : Z) (n : nat) : list (F p) :=
  flat_map (fun b => o_words (assigned_block t (i0 + Z.of_nat b))) (seq 0 n).

Lemma flat_map_const {A} (f : nat -> list A) (g : nat -> A) m n : (forall b, (b < n)%nat -> f b = map (fun q => g (m * b + q)%nat) (seq 0 m)) ->
  flat_map f (seq 0 n) = map g (seq 0 (m * n)).
Proof.
  induction n as [|n IH]; intros H; [now rewrite Nat.mul_0_r|].
  rewrite seq_S, flat_map_app, IH by (intros; apply H; lia). cbn [flat_map plus]. rewrite app_nil_r, H by lia.
  rewrite <- (seq_shift_map g). replace (m * S n)%nat with (m * n + m)%nat by lia. rewrite seq_app, map_app. reflexivity.
Qed.
Lemma le_val4_inj a b : length a = length b -> bytes a -> bytes b -> le_val a = le_val b -> a = b.
Proof.
  revert b. induction a as [|x a IH]; intros [|y b] HL HA HB H; try discriminate HL; [reflexivity|].
  cbn [le_val] in H. apply Forall_cons_iff in HA. apply Forall_cons_iff in HB. destruct HA as [A1 A2], HB as [B1 B2].
  assert (x = y) by lia. subst y. f_equal. apply IH; [now injection HL|assumption|assumption|lia].
Qed.
Lemma nth_byte l k : bytes l -> 0 <= nth k l 0 < 256.
Proof.
  intros H. destruct (Nat.lt_ge_cases k (length l)) as [L|L]; [|rewrite nth_overflow by exact L; lia].
  exact (proj1 (Forall_forall _ _) H _ (nth_In _ 0 L)).
Qed.
Lemma le_word_bound msg q : bytes msg -> 0 <= le_val (map (fun k => nth (4 * q + k) msg 0) (seq 0 4)) < 2 ^ 32.
Proof.
  intros H. cbn [seq map le_val]. pose proof (nth_byte msg (4 * q + 0) H). pose proof (nth_byte msg (4 * q + 1) H).
  pose proof (nth_byte msg (4 * q + 2) H). pose proof (nth_byte msg (4 * q + 3) H). lia.
Qed.

Section Sha.
Context {p : positive}.
Notation P := (Z.pos p).
Hypothesis Hp : prime P.
Hypothesis Hbig : 2 ^ 40 < P.
Lemma fb_inj b : fbool b = F1 :> F p -> b = true.
Proof. destruct b; [reflexivity|]. intros E. exfalso. exact (F1_neq_0 p Hp (eq_sym E)). Qed.
Lemma fb_inj0 b : fbool b = F0 :> F p -> b = false.
Proof. destruct b; [|reflexivity]. intros E. exfalso. exact (F1_neq_0 p Hp E). Qed.

(** Whatever the prover puts in the advice cells of [nb] blocks (any table with the assigned fixed columns on which all the
    gates vanish), the is_final cells are 0 or 1 and every maximal input contains a byte string, shorter than 2^29 bytes, whose
    length, words and number of blocks are those in the cells handed out, and whose SHA-256 digest is the output. *)
Theorem C63_sha256_sound (t : table p) nb :
  SHA_ROWS * nb <= rows t -> 512 * nb < P -> fixed_assigned t nb -> satisfies t sha_gates ->
  (forall j, 0 <= j < nb -> is_bit (o_final (assigned_block t j))) /\
  (forall i0 j, 0 <= i0 <= j -> j < nb -> one_input t i0 j ->
     exists msg, bytes msg /\ Z.of_nat (length msg) < 2 ^ 29 /\
       j - i0 + 1 = num_blocks (Z.of_nat (length msg)) /\
       o_len (assigned_block t j) = of_Z p (Z.of_nat (length msg)) /\
       input_words t i0 (Z.to_nat (j - i0 + 1)) = map (of_Z p) (le_words (16 * Z.to_nat (j - i0 + 1)) msg) /\
       o_hi (assigned_block t j) = of_Z p (be_val (firstn 16 (sha256 msg))) /\
       o_lo (assigned_block t j) = of_Z p (be_val (skipn 16 (sha256 msg)))).
Proof.
  intros Hrows Hlen HF HSat.
  assert (FC : forall j, 0 <= j < nb -> o_final (assigned_block t j) = fbool (fin t j)).
  { intros j Hj. exact (final_cell Hp t nb Hrows HF HSat j Hj). }
  split.
  { intros j Hj. rewrite FC by exact Hj. destruct (fin t j); [right|left]; reflexivity. }
  intros i0 j Hi Hj (HS1 & HS2 & HS3). set (n := Z.to_nat (j - i0 + 1)).
  assert (Hn : (0 < n)%nat) by lia. assert (Hend : i0 + Z.of_nat n <= nb) by lia.
  assert (Ej : j = i0 + Z.of_nat (n - 1)) by lia.
  assert (Hfresh : fresh t i0 = true).
  { unfold fresh. destruct (Z.eqb_spec i0 0) as [|Hz]; [reflexivity|]. cbn [orb]. destruct HS1 as [|HS1]; [lia|].
    rewrite FC in HS1 by lia. now apply fb_inj. }
  assert (Hmid : forall b, (S b < n)%nat -> fin t (i0 + Z.of_nat b) = false).
  { clear HS1 HS3. intros b Hb. specialize (HS2 (i0 + Z.of_nat b) ltac:(lia)). rewrite FC in HS2 by lia. now apply fb_inj0. }
  assert (Hlast : fin t (i0 + Z.of_nat (n - 1)) = true) by (rewrite <- Ej; rewrite FC in HS3 by lia; now apply fb_inj).
  destruct (glength Hp Hbig t nb Hrows HF HSat i0 n ltac:(lia) Hn Hend Hfresh Hmid Hlast) as (L & HL1 & HL2 & HT).
  exists (message t i0 L). rewrite message_len.
  assert (ELen : 8 * Z.of_nat L < 2 ^ 32) by exact (len_bound Hp Hbig t nb Hrows HF HSat Hlen i0 n ltac:(lia) Hn Hend Hfresh Hmid Hlast L HL1 HL2 HT).
  split; [apply message_bytes|]. split; [lia|]. split.
  { unfold num_blocks. apply (Z.div_unique _ _ _ (Z.of_nat L + 72 - 64 * (j - i0 + 1))); lia. }
  split; [|split].
  - rewrite Ej. exact (len_cell Hp t nb Hrows HF HSat i0 n ltac:(lia) Hn Hend Hfresh Hmid L HL1 HL2 HT).
  - unfold input_words, le_words.
    rewrite (flat_map_const _ (fun q => of_Z p (le_val (map (fun k => nth (4 * q + k) (message t i0 L) 0) (seq 0 4)))) 16 n).
    + rewrite map_map. reflexivity.
    + intros b Hb. cbn [assigned_block o_words]. apply map_ext_in. intros q Hq. apply in_seq in Hq.
      change (SHA_ROWS * (i0 + Z.of_nat b) + (4 + Z.of_nat q)) with (row (i0 + Z.of_nat b) (4 + Z.of_nat q)).
      rewrite (word_row Hp t nb Hrows HF HSat) by lia. f_equal. cbn [seq map]. f_equal.
      rewrite !(masked_eq t i0 n Hn L HL1 HL2 HT) by lia.
      replace (4 * (16 * b + q) + 0)%nat with (64 * b + 4 * q)%nat by lia.
      replace (4 * (16 * b + q) + 1)%nat with (64 * b + (4 * q + 1))%nat by lia.
      replace (4 * (16 * b + q) + 2)%nat with (64 * b + (4 * q + 2))%nat by lia.
      replace (4 * (16 * b + q) + 3)%nat with (64 * b + (4 * q + 3))%nat by lia. reflexivity.
  - destruct (digest_row Hp t nb Hrows HF HSat j ltac:(lia)) as [D1 D2]; [rewrite Ej; exact Hlast|].
    assert (ED : hs_bytes (st_out t j) = sha256 (message t i0 L)) by (rewrite Ej; exact (digest_eq Hp Hbig t nb Hrows HF HSat Hlen i0 n ltac:(lia) Hn Hend Hfresh Hmid Hlast L HL1 HL2 HT)).
    rewrite ED in D1, D2. split; [exact D2|exact D1].
Qed.
(** ... so the digest is the one of any byte string that matches the length and word cells *)
Theorem C63_sha256_of_cells (t : table p) nb :
  SHA_ROWS * nb <= rows t -> 512 * nb < P -> fixed_assigned t nb -> satisfies t sha_gates ->
  forall i0 j, 0 <= i0 <= j -> j < nb -> one_input t i0 j ->
  forall msg, bytes msg -> Z.of_nat (length msg) < P ->
    o_len (assigned_block t j) = of_Z p (Z.of_nat (length msg)) ->
    input_words t i0 (Z.to_nat (j - i0 + 1)) = map (of_Z p) (le_words (16 * Z.to_nat (j - i0 + 1)) msg) ->
    o_hi (assigned_block t j) = of_Z p (be_val (firstn 16 (sha256 msg))) /\
    o_lo (assigned_block t j) = of_Z p (be_val (skipn 16 (sha256 msg))).
Proof.
  intros Hrows Hlen HF HSat i0 j Hi Hj HI msg HB HL EL EW.
  destruct (C63_sha256_sound t nb Hrows Hlen HF HSat) as [_ S].
  destruct (S i0 j Hi Hj HI) as (m & HmB & HmL & HmN & EmL & EmW & Ehi & Elo).
  assert (E : msg = m); [|subst m; split; assumption].
  rewrite EL in EmL. apply (of_Z_inj (p:=p)) in EmL; [|lia|lia]. apply Nat2Z.inj in EmL.
  rewrite EW in EmW. set (n := Z.to_nat (j - i0 + 1)) in *.
  assert (HC : (length m <= 64 * n)%nat).
  { unfold num_blocks in HmN. pose proof (Z.mul_div_le (Z.of_nat (length m) + 9 + 63) 64 ltac:(lia)).
    pose proof (Z.mod_pos_bound (Z.of_nat (length m) + 9 + 63) 64 ltac:(lia)).
    pose proof (Z.div_mod (Z.of_nat (length m) + 9 + 63) 64 ltac:(lia)). lia. }
  apply (nth_ext _ _ 0 0 EmL). intros k Hk.
  pose proof (Nat.div_mod k 4 ltac:(lia)) as DM. set (q := (k / 4)%nat) in *. set (i := (k mod 4)%nat) in *.
  assert (Hi4 : (i < 4)%nat) by (apply Nat.mod_upper_bound; lia).
  assert (Hq : (q < 16 * n)%nat) by lia.
  apply (f_equal (fun l => nth q l (of_Z p 0))) in EmW. rewrite !(map_nth (of_Z p)) in EmW. unfold le_words in EmW.
  assert (NT : forall m0, nth q (map (fun q => le_val (map (fun k => nth (4 * q + k) m0 0) (seq 0 4))) (seq 0 (16 * n))) 0
              = le_val (map (fun k => nth (4 * q + k) m0 0) (seq 0 4))).
  { intros m0. set (f := fun q0 : nat => le_val (map (fun k => nth (4 * q0 + k) m0 0) (seq 0 4))).
    rewrite (nth_indep _ 0 (f 0%nat)) by (rewrite map_length, seq_length; exact Hq). rewrite map_nth, seq_nth by exact Hq. reflexivity. }
  rewrite !NT in EmW. pose proof (le_word_bound msg q HB). pose proof (le_word_bound m q HmB).
  apply (of_Z_inj (p:=p)) in EmW; [|lia|lia].
  apply le_val4_inj in EmW; [|now rewrite !map_length| |].
  - rewrite DM. apply (f_equal (fun l => nth i l 0)) in EmW.
    assert (NI : forall m0, nth i (map (fun k => nth (4 * q + k) m0 0) (seq 0 4)) 0 = nth (4 * q + i) m0 0).
    { intros m0. destruct i as [|[|[|[|i]]]]; [reflexivity|reflexivity|reflexivity|reflexivity|lia]. }
    rewrite !NI in EmW. exact EmW.
  - apply Forall_forall. intros x Hx. apply in_map_iff in Hx. destruct Hx as (? & <- & _). now apply nth_byte.
  - apply Forall_forall. intros x Hx. apply in_map_iff in Hx. destruct Hx as (? & <- & _). now apply nth_byte.
Qed.
End Sha.

(** Configuring the circuit never panics: every constraint has degree at most four. *)
Theorem C64_sha256_config p : sha_config (p:=p) = Some sha_gates /\ Forall (fun e => (degree e <= 4)%nat) (sha_gates (p:=p)).
Proof.
  assert (H : forallb (fun e => Nat.leb (degree e) 4) (sha_gates (p:=p)) = true) by (lazy; reflexivity).
  split.
  - unfold sha_config. now rewrite H.
  - apply Forall_forall. intros e He. apply Nat.leb_le. rewrite forallb_forall in H. exact (H e He).
Qed.
