(** What the SHA-256 gates say about the rows of an assigned table. *)
From Coq Require Import ZArith Lia List Bool Ring Znumtheory.
From Verif Require Import Field Spec ShaSpec ShaCircuit ShaBits ShaEval.
Import ListNotations.
Local Open Scope Z_scope.

Lemma cst_bound i : 0 <= nth i ROUND_CST 0 < 2 ^ 32.
Proof.
  assert (H : Forall (fun x => 0 <= x < 2 ^ 32) ROUND_CST).
  { apply Forall_forall. intros x Hx. assert (HB : forallb (within 0 (2 ^ 32)) ROUND_CST = true) by reflexivity.
    rewrite forallb_forall in HB. specialize (HB x Hx). unfold within in HB. apply andb_prop in HB. destruct HB as [B1 B2].
    apply Z.leb_le in B1. apply Z.ltb_lt in B2. lia. }
  destruct (Nat.lt_ge_cases i (length ROUND_CST)) as [L|L]; [|rewrite nth_overflow by exact L; lia].
  exact (proj1 (Forall_forall _ _) H _ (nth_In _ 0 L)).
Qed.
Lemma init_bound i : 0 <= nth i H_INIT 0 < 2 ^ 32.
Proof.
  assert (H : Forall (fun x => 0 <= x < 2 ^ 32) H_INIT).
  { apply Forall_forall. intros x Hx. assert (HB : forallb (within 0 (2 ^ 32)) H_INIT = true) by reflexivity.
    rewrite forallb_forall in HB. specialize (HB x Hx). unfold within in HB. apply andb_prop in HB. destruct HB as [B1 B2].
    apply Z.leb_le in B1. apply Z.ltb_lt in B2. lia. }
  destruct (Nat.lt_ge_cases i (length H_INIT)) as [L|L]; [|rewrite nth_overflow by exact L; lia].
  exact (proj1 (Forall_forall _ _) H _ (nth_In _ 0 L)).
Qed.

Section Rows.
Context {p : positive}.
Notation Fp := (F p).
Notation P := (Z.pos p).
Add Ring Fring : (F_ring p) (morphism (F_morph p), constants [Fcst]).
Hypothesis Hp : prime P.
Hypothesis Hbig : 2 ^ 40 < P.
Variable t : table p.
Variable nb : Z.
Hypothesis Hrows : SHA_ROWS * nb <= rows t.
Hypothesis HF : fixed_assigned t nb.
Hypothesis HS : satisfies t sha_gates.

Definition bit (c : acol) (r : Z) : bool := negb (Fis0 (advc t c r)).
Definition wordbits (c : nat -> acol) (skip n : nat) (r : Z) : list bool := map (fun i => bit (c (i + skip)%nat) r) (seq 0 n).

Lemma of_Z_inj x y : 0 <= x < P -> 0 <= y < P -> of_Z p x = of_Z p y -> x = y.
Proof. intros Hx Hy H. apply of_Z_eq_iff in H. rewrite !Z.mod_small in H by assumption. exact H. Qed.
Lemma F_bit (x : Fp) : (x * (F1 - x))%F = F0 -> x = fbool (negb (Fis0 x)).
Proof.
  intros H. destruct (F_integral p Hp _ _ H) as [E|E].
  - rewrite (proj2 (Fis0_true p x) E). exact E.
  - assert (E1 : x = F1) by (transitivity (F1 - (F1 - x))%F; [ring|rewrite E; ring]).
    destruct (Fis0 x) eqn:Z0; [|exact E1]. apply Fis0_true in Z0. exact Z0.
Qed.
Lemma fb_bit b x : x = fbool b -> negb (Fis0 (p:=p) x) = b.
Proof.
  intros ->. destruct b; unfold fbool.
  - destruct (Fis0 F1) eqn:E; [|reflexivity]. apply Fis0_true in E. exfalso. exact (F1_neq_0 p Hp E).
  - now rewrite (proj2 (Fis0_true p F0) eq_refl).
Qed.

(** rows of the assigned part *)
Lemma row_range r : 0 <= r < SHA_ROWS * nb -> 0 <= r < rows t.
Proof. lia. Qed.
Lemma fix_at c r rot : 0 <= r + rot < SHA_ROWS * nb -> eval t r (Fixed c rot) = of_Z p (fixed_value c (r + rot)).
Proof.
  intros H. cbn [eval]. rewrite Z.mod_small by (apply row_range; exact H). rewrite HF by (apply row_range; exact H).
  now rewrite (proj2 (Z.ltb_lt _ _)) by apply H.
Qed.
Lemma fix_cur c r : 0 <= r < SHA_ROWS * nb -> eval t r (qf c) = of_Z p (fixed_value c r).
Proof. intros H. unfold qf. rewrite fix_at by lia. now rewrite Z.add_0_r. Qed.
Lemma adv_at c r rot : 0 <= r + rot < SHA_ROWS * nb -> eval t r (Advice c rot) = advc t c (r + rot).
Proof. intros H. cbn [eval]. rewrite Z.mod_small by (apply row_range; exact H). reflexivity. Qed.
Lemma adv_cur c r : 0 <= r < SHA_ROWS * nb -> eval t r (Advice c 0) = advc t c r.
Proof. intros H. rewrite adv_at by lia. now rewrite Z.add_0_r. Qed.
Lemma round_of j i : 0 <= i < 72 -> (SHA_ROWS * j + i) mod SHA_ROWS = i.
Proof. intros H. unfold SHA_ROWS. rewrite Z.add_comm, Z.mul_comm, Z.mod_add, Z.mod_small; lia. Qed.
Lemma in_rows j i : 0 <= j < nb -> 0 <= i < 72 -> 0 <= SHA_ROWS * j + i < SHA_ROWS * nb.
Proof. unfold SHA_ROWS. lia. Qed.

(** the gates at a row *)
Lemma gates_at r : 0 <= r < SHA_ROWS * nb -> Forall (fun e => eval t r e = F0) sha_gates.
Proof. intros H. apply HS. lia. Qed.
Lemma gate_in r e : 0 <= r < SHA_ROWS * nb -> In e sha_gates -> eval t r e = F0.
Proof. intros H HI. exact (proj1 (Forall_forall _ _) (gates_at r H) e HI). Qed.
Lemma prod_sel r s e : eval t r (Product s e) = F0 -> eval t r s = F1 -> eval t r e = F0.
Proof. cbn [eval]. intros H E. rewrite E in H. rewrite <- H. ring. Qed.
Lemma gate_sel r s l e : 0 <= r < SHA_ROWS * nb -> incl (gate s l) sha_gates -> In e l -> eval t r s = F1 -> eval t r e = F0.
Proof.
  intros H HI HE Hs. apply (prod_sel r s); [|exact Hs]. apply gate_in; [exact H|]. apply HI. unfold gate. now apply in_map.
Qed.
Lemma cond_sel r c l e : (forall e', In e' (condition c l) -> eval t r e' = F0) -> In e l -> eval t r c = F1 -> eval t r e = F0.
Proof. intros H HE Hc. apply (prod_sel r c); [|exact Hc]. apply H. unfold condition. now apply in_map. Qed.
Lemma eq_sel r a b : eval t r (require_equal a b) = F0 -> eval t r a = eval t r b.
Proof. unfold require_equal. rewrite ev_sub. intros H. transitivity (eval t r a - eval t r b + eval t r b)%F; [ring|rewrite H; ring]. Qed.

Lemma incl_in {A} (l a b : list A) : incl l b -> incl l (a ++ b).
Proof. intros H x Hx. apply in_or_app. right. now apply H. Qed.
Lemma incl_here {A} (l b : list A) : incl l (l ++ b).
Proof. intros x Hx. apply in_or_app. now left. Qed.
Ltac find_gate := unfold sha_gates; repeat first [apply incl_here | apply incl_in | exact (incl_refl _)].
Lemma i_input_checks : incl g_input_checks (sha_gates (p:=p)). Proof. find_gate. Qed.
Lemma i_w_extend : incl g_w_extend (sha_gates (p:=p)). Proof. find_gate. Qed.
Lemma i_compression : incl g_compression (sha_gates (p:=p)). Proof. find_gate. Qed.
Lemma i_start : incl g_start (sha_gates (p:=p)). Proof. find_gate. Qed.
Lemma i_end : incl g_end (sha_gates (p:=p)). Proof. find_gate. Qed.
Lemma i_is_final : incl g_is_final (sha_gates (p:=p)). Proof. find_gate. Qed.
Lemma i_padding : incl g_padding (sha_gates (p:=p)). Proof. find_gate. Qed.
Lemma i_word_value : incl g_word_value (sha_gates (p:=p)). Proof. find_gate. Qed.
Lemma i_length : incl g_length (sha_gates (p:=p)). Proof. find_gate. Qed.
Lemma i_cross : incl g_cross (sha_gates (p:=p)). Proof. find_gate. Qed.
Lemma i_squeeze : incl g_squeeze (sha_gates (p:=p)). Proof. find_gate. Qed.
Lemma i_unused : incl g_unused (sha_gates (p:=p)). Proof. find_gate. Qed.

(** the word cells are bits *)
Lemma cell_bit r c : 0 <= r < SHA_ROWS * nb ->
  In (Advice c 0) (w_ext ++ new_a_ext ++ new_e_ext (p:=p)) -> advc t c r = fbool (bit c r).
Proof.
  intros H HI. apply F_bit.
  assert (E : eval t r (require_boolean (Advice c 0)) = F0).
  { apply (gate_sel r (qf QEnable) (map require_boolean w_ext ++ map require_boolean new_a_ext ++ map require_boolean new_e_ext)).
    - exact H. - exact i_input_checks.
    - rewrite <- !map_app. now apply in_map.
    - rewrite fix_cur by exact H. reflexivity. }
  unfold require_boolean in E. cbn [eval] in E. rewrite ev_sub in E.
  change (eval t r (Advice c 0)) with (eval t r (Advice c 0)) in E. rewrite Z.add_0_r in E.
  rewrite Z.mod_small in E by (apply row_range; exact H). cbn [eval cst] in E. rewrite Z.add_0_r in E.
  rewrite Z.mod_small in E by (apply row_range; exact H). exact E.
Qed.
Lemma in_bits_at c skip n rot k : (skip <= k < skip + n)%nat -> In (Advice (c k) rot : expr p) (bits_at c skip n rot).
Proof.
  intros H. unfold bits_at. apply in_map_iff. exists (k - skip)%nat. split; [f_equal; f_equal; lia|]. apply in_seq. lia.
Qed.
Lemma bit_w r k : 0 <= r < SHA_ROWS * nb -> (k < 34)%nat -> advc t (CW k) r = fbool (bit (CW k) r).
Proof. intros. apply cell_bit; [assumption|]. apply in_or_app. left. apply in_bits_at. lia. Qed.
Lemma bit_a r k : 0 <= r < SHA_ROWS * nb -> (k < 35)%nat -> advc t (CA k) r = fbool (bit (CA k) r).
Proof. intros. apply cell_bit; [assumption|]. apply in_or_app. right. apply in_or_app. left. apply in_bits_at. lia. Qed.
Lemma bit_e r k : 0 <= r < SHA_ROWS * nb -> (k < 35)%nat -> advc t (CE k) r = fbool (bit (CE k) r).
Proof. intros. apply cell_bit; [assumption|]. apply in_or_app. right. apply in_or_app. right. apply in_bits_at. lia. Qed.
Lemma bits_row c skip n r rot : 0 <= r + rot < SHA_ROWS * nb ->
  (forall k, (k < skip + n)%nat -> advc t (c k) (r + rot) = fbool (bit (c k) (r + rot))) ->
  bits t r (bits_at c skip n rot) (wordbits c skip n (r + rot)).
Proof.
  intros H HB. unfold bits, bits_at, wordbits. rewrite !map_map. apply map_ext_in. intros i Hi. apply in_seq in Hi.
  rewrite adv_at by exact H. apply HB. lia.
Qed.
Definition Wb r := wordbits CW 2 32 r.
Definition Ab r := wordbits CA 3 32 r.
Definition Eb r := wordbits CE 3 32 r.
Lemma bits_W r rot : 0 <= r + rot < SHA_ROWS * nb -> bits t r (bits_at CW 2 32 rot) (Wb (r + rot)).
Proof. intros H. apply bits_row; [exact H|]. intros k Hk. apply bit_w; [exact H|lia]. Qed.
Lemma bits_A r rot : 0 <= r + rot < SHA_ROWS * nb -> bits t r (bits_at CA 3 32 rot) (Ab (r + rot)).
Proof. intros H. apply bits_row; [exact H|]. intros k Hk. apply bit_a; [exact H|lia]. Qed.
Lemma bits_E r rot : 0 <= r + rot < SHA_ROWS * nb -> bits t r (bits_at CE 3 32 rot) (Eb (r + rot)).
Proof. intros H. apply bits_row; [exact H|]. intros k Hk. apply bit_e; [exact H|lia]. Qed.
Lemma bits_Wx r : 0 <= r < SHA_ROWS * nb -> bits t r w_ext (wordbits CW 0 34 r).
Proof. intros H. unfold w_ext. rewrite <- (Z.add_0_r r) at 2. apply bits_row; rewrite Z.add_0_r; [exact H|]. intros k Hk. apply bit_w; [exact H|lia]. Qed.
Lemma bits_Ax r : 0 <= r < SHA_ROWS * nb -> bits t r new_a_ext (wordbits CA 0 35 r).
Proof. intros H. unfold new_a_ext. rewrite <- (Z.add_0_r r) at 2. apply bits_row; rewrite Z.add_0_r; [exact H|]. intros k Hk. apply bit_a; [exact H|lia]. Qed.
Lemma bits_Ex r : 0 <= r < SHA_ROWS * nb -> bits t r new_e_ext (wordbits CE 0 35 r).
Proof. intros H. unfold new_e_ext. rewrite <- (Z.add_0_r r) at 2. apply bits_row; rewrite Z.add_0_r; [exact H|]. intros k Hk. apply bit_e; [exact H|lia]. Qed.
Lemma wordbits_len c skip n r : length (wordbits c skip n r) = n.
Proof. unfold wordbits. now rewrite map_length, seq_length. Qed.
(** the extended word modulo 2^32 is the word *)
Lemma ext_low c k r : bz (wordbits c 0 (k + 32) r) mod 2 ^ 32 = bz (wordbits c k 32 r).
Proof.
  assert (E : wordbits c 0 (k + 32) r = wordbits c 0 k r ++ wordbits c k 32 r).
  { unfold wordbits. rewrite seq_app, map_app. f_equal. rewrite <- (Nat.add_0_l k) at 1.
    change (seq (0 + k) 32) with (seq (0 + k) 32). replace (0 + k)%nat with (k + 0)%nat by lia.
    assert (Hs : forall n s, map (fun i => bit (c (i + 0)%nat) r) (seq (k + s) n) = map (fun i => bit (c (i + k)%nat) r) (seq s n)).
    { intros n. induction n as [|n IH]; intros s; [reflexivity|]. cbn [seq map]. f_equal; [f_equal; f_equal; lia|].
      replace (S (k + s)) with (k + S s)%nat by lia. apply IH. }
    apply Hs. }
  rewrite E, bz_app, wordbits_len. pose proof (bz_bound (wordbits c k 32 r)) as B. rewrite wordbits_len in B.
  change (2 ^ Z.of_nat 32) with (2 ^ 32) in *. rewrite Z.add_comm, Z.mod_add by lia. now apply Z.mod_small.
Qed.
Definition Wv r := bz (Wb r).
Definition Av r := bz (Ab r).
Definition Ev r := bz (Eb r).
Lemma Wv_bound r : 0 <= Wv r < 2 ^ 32.
Proof. unfold Wv, Wb. pose proof (bz_bound (wordbits CW 2 32 r)) as B. rewrite wordbits_len in B. exact B. Qed.
Lemma Av_bound r : 0 <= Av r < 2 ^ 32.
Proof. unfold Av, Ab. pose proof (bz_bound (wordbits CA 3 32 r)) as B. rewrite wordbits_len in B. exact B. Qed.
Lemma Ev_bound r : 0 <= Ev r < 2 ^ 32.
Proof. unfold Ev, Eb. pose proof (bz_bound (wordbits CE 3 32 r)) as B. rewrite wordbits_len in B. exact B. Qed.
Lemma dec_Ax r : 0 <= r < SHA_ROWS * nb -> eval t r (decode_expr new_a_ext) = of_Z p (bz (wordbits CA 0 35 r)).
Proof. intros H. apply ev_decode. now apply bits_Ax. Qed.
Lemma dec_Ex r : 0 <= r < SHA_ROWS * nb -> eval t r (decode_expr new_e_ext) = of_Z p (bz (wordbits CE 0 35 r)).
Proof. intros H. apply ev_decode. now apply bits_Ex. Qed.
(** a field equation on an extended word of [k + 32] bits is an equation modulo 2^32 *)
Lemma ext_eq c k r z : (k <= 3)%nat -> 0 <= z < 2 ^ 40 -> of_Z p (bz (wordbits c 0 (k + 32) r)) = of_Z p z ->
  bz (wordbits c k 32 r) = z mod 2 ^ 32.
Proof.
  intros Hk Hz H. rewrite <- ext_low. f_equal. apply of_Z_inj in H; [exact H| |lia].
  pose proof (bz_bound (wordbits c 0 (k + 32) r)) as B. rewrite wordbits_len in B.
  assert (2 ^ Z.of_nat (k + 32) <= 2 ^ 40) by (apply Z.pow_le_mono_r; lia). lia.
Qed.

Lemma ev_sum r a b : eval t r (Sum a b) = (eval t r a + eval t r b)%F. Proof. reflexivity. Qed.
Lemma ev_prod r a b : eval t r (Product a b) = (eval t r a * eval t r b)%F. Proof. reflexivity. Qed.
(** three-operand xors *)
Definition x3 (a b c : list bool) : list bool := map2 xorb a (map2 xorb b c).
Lemma x3_len n a b c : length a = n -> length b = n -> length c = n -> length (x3 a b c) = n.
Proof. intros. unfold x3. rewrite !map2_length; rewrite ?map2_length; lia. Qed.
Lemma bz32 l : length l = 32%nat -> 0 <= bz l < 2 ^ 32.
Proof. intros H. pose proof (bz_bound l) as B. rewrite H in B. exact B. Qed.
Lemma bz_x3 a b c : length a = length b -> length b = length c -> bz (x3 a b c) = Z.lxor (Z.lxor (bz a) (bz b)) (bz c).
Proof. intros H1 H2. unfold x3. rewrite bz_xor by (rewrite map2_length; lia). rewrite bz_xor by assumption. symmetry. apply Z.lxor_assoc. Qed.
Lemma shift_len (l : list bool) n : length l = 32%nat -> (n <= 32)%nat -> length (repeat false n ++ firstn (32 - n) l) = 32%nat.
Proof. intros. rewrite app_length, repeat_length, firstn_length. lia. Qed.
Lemma bz_rot3 l a b c : length l = 32%nat -> (0 < a < 32)%nat -> (0 < b < 32)%nat -> (0 < c < 32)%nat ->
  bz (x3 (rotate_expr l a) (rotate_expr l b) (rotate_expr l c)) =
  Z.lxor (Z.lxor (rotr (Z.of_nat a) (bz l)) (rotr (Z.of_nat b) (bz l))) (rotr (Z.of_nat c) (bz l)).
Proof. intros HL Ha Hb Hc. rewrite bz_x3 by (rewrite !rotate_length; reflexivity). now rewrite !bz_rotate by assumption. Qed.
Lemma bz_rot2s l a b c : length l = 32%nat -> (0 < a < 32)%nat -> (0 < b < 32)%nat -> (0 < c < 32)%nat ->
  bz (x3 (rotate_expr l a) (rotate_expr l b) (repeat false c ++ firstn (32 - c) l)) =
  Z.lxor (Z.lxor (rotr (Z.of_nat a) (bz l)) (rotr (Z.of_nat b) (bz l))) (Z.shiftr (bz l) (Z.of_nat c)).
Proof.
  intros HL Ha Hb Hc. rewrite bz_x3 by (rewrite ?rotate_length, ?shift_len by lia; lia).
  rewrite !bz_rotate by assumption. now rewrite bz_shift by assumption.
Qed.
Lemma bits_x3 r l1 l2 l3 b1 b2 b3 : bits t r l1 b1 -> bits t r l2 b2 -> bits t r l3 b3 ->
  bits t r (xor_bits l1 (xor_bits l2 l3)) (x3 b1 b2 b3).
Proof. intros H1 H2 H3. apply bits_xor; [exact H1|]. now apply bits_xor. Qed.
Lemma Wb_len r : length (Wb r) = 32%nat. Proof. apply wordbits_len. Qed.
Lemma Ab_len r : length (Ab r) = 32%nat. Proof. apply wordbits_len. Qed.
Lemma Eb_len r : length (Eb r) = 32%nat. Proof. apply wordbits_len. Qed.
Lemma within_true lo hi i : lo <= i < hi -> within lo hi i = true.
Proof. intros H. unfold within. apply andb_true_intro. split; [apply Z.leb_le|apply Z.ltb_lt]; lia. Qed.

(** the message schedule *)
Lemma extend_row j i r : 0 <= j < nb -> 20 <= i < 68 -> r = SHA_ROWS * j + i ->
  Wv r = (sigma1 (Wv (r - 2)) + Wv (r - 7) + sigma0 (Wv (r - 15)) + Wv (r - 16)) mod 2 ^ 32.
Proof.
  intros Hj Hi Hr. assert (H0 : 0 <= r < SHA_ROWS * nb) by (rewrite Hr; apply in_rows; lia).
  assert (HR : forall k, 0 <= k <= 16 -> 0 <= r + - k < SHA_ROWS * nb) by (intros k Hk; rewrite Hr; unfold SHA_ROWS in *; lia).
  assert (HE := gate_sel r (qf QExtend) _ _ H0 i_w_extend (or_introl eq_refl)).
  assert (HQ : eval t r (qf QExtend) = F1).
  { rewrite fix_cur by exact H0. unfold fixed_value. rewrite Hr, round_of by lia. rewrite within_true by lia. reflexivity. }
  specialize (HE HQ). apply eq_sel in HE. cbn [eval] in HE. unfold w_16, w_15, w_7, w_2 in HE.
  rewrite (ev_decode t r _ _ (bits_W r (-16) (HR 16 ltac:(lia)))) in HE.
  rewrite (ev_decode t r _ _ (bits_W r (-7) (HR 7 ltac:(lia)))) in HE.
  pose proof (bits_W r (-15) (HR 15 ltac:(lia))) as B15. pose proof (bits_W r (-2) (HR 2 ltac:(lia))) as B2.
  rewrite (ev_decode t r _ _ (bits_x3 r _ _ _ _ _ _ (bits_rotate t r _ _ 7 B15) (bits_rotate t r _ _ 18 B15) (bits_shift t r _ _ 3 B15))) in HE.
  rewrite (ev_decode t r _ _ (bits_x3 r _ _ _ _ _ _ (bits_rotate t r _ _ 17 B2) (bits_rotate t r _ _ 19 B2) (bits_shift t r _ _ 10 B2))) in HE.
  rewrite (ev_decode t r _ _ (bits_Wx r H0)) in HE. rewrite <- !of_Z_add in HE. symmetry in HE.
  rewrite !bz_rot2s in HE by (try apply Wb_len; lia).
  apply (ext_eq CW 2 r) in HE; [|lia|].
  - unfold Wv, Wb at 1. rewrite HE. f_equal. unfold sigma0, sigma1. change (Z.of_nat 7) with 7. change (Z.of_nat 18) with 18.
    change (Z.of_nat 3) with 3. change (Z.of_nat 17) with 17. change (Z.of_nat 19) with 19. change (Z.of_nat 10) with 10.
    change (r - 2) with (r + -2). change (r - 7) with (r + -7). change (r - 15) with (r + -15). change (r - 16) with (r + -16). lia.
  - rewrite <- !bz_rot2s by (try apply Wb_len; lia).
    match goal with |- 0 <= bz ?a + bz ?b + bz ?c + bz ?d < _ =>
      pose proof (bz32 a); pose proof (bz32 b); pose proof (bz32 c); pose proof (bz32 d) end.
    repeat match goal with H : length (x3 _ _ _) = 32%nat -> _ |- _ =>
      specialize (H ltac:(apply x3_len; rewrite ?rotate_length, ?shift_len; try lia; apply Wb_len)) end.
    repeat match goal with H : length (Wb _) = 32%nat -> _ |- _ => specialize (H (Wb_len _)) end. lia.
Qed.

(** the compression rounds *)
Definition T1 (r k : Z) : Z := Ev (r - 4) + Sigma1 (Ev (r - 1)) + Ch (Ev (r - 1)) (Ev (r - 2)) (Ev (r - 3)) + k + Wv r.
Definition T2 (r : Z) : Z := Sigma0 (Av (r - 1)) + Maj (Av (r - 1)) (Av (r - 2)) (Av (r - 3)).
Lemma sel_len (a b c : list bool) : length a = 32%nat -> length b = 32%nat -> length c = 32%nat -> length (map2 sel_bit a (combine b c)) = 32%nat.
Proof. intros. rewrite map2_length; rewrite ?combine_length; lia. Qed.
Lemma S1_bound r : 0 <= Sigma1 (Ev r) < 2 ^ 32.
Proof.
  unfold Sigma1, Ev. change 6 with (Z.of_nat 6). change 11 with (Z.of_nat 11). change 25 with (Z.of_nat 25).
  rewrite <- bz_rot3 by (try apply Eb_len; lia). apply bz32. apply x3_len; rewrite rotate_length; apply Eb_len.
Qed.
Lemma S0_bound r : 0 <= Sigma0 (Av r) < 2 ^ 32.
Proof.
  assert (E : Sigma0 (Av r) = bz (x3 (rotate_expr (Ab r) 2) (rotate_expr (Ab r) 13) (rotate_expr (Ab r) 22)))
    by (symmetry; apply (bz_rot3 (Ab r) 2 13 22); try apply Ab_len; lia).
  rewrite E. apply bz32. apply x3_len; rewrite rotate_length; apply Ab_len.
Qed.
Lemma Ch_bound r1 r2 r3 : 0 <= Ch (Ev r1) (Ev r2) (Ev r3) < 2 ^ 32.
Proof. unfold Ev. rewrite <- bz_ch by (rewrite !Eb_len; reflexivity). apply bz32. apply sel_len; apply Eb_len. Qed.
Lemma Maj_bound r1 r2 r3 : 0 <= Maj (Av r1) (Av r2) (Av r3) < 2 ^ 32.
Proof.
  unfold Av. rewrite <- bz_maj by (rewrite !Ab_len; reflexivity). apply bz32.
  apply sel_len; try apply Ab_len. rewrite map2_length; rewrite !Ab_len; reflexivity.
Qed.
Lemma T1_bound r k : 0 <= k < 2 ^ 32 -> 0 <= T1 r k < 2 ^ 36.
Proof.
  intros Hk. unfold T1. pose proof (Ev_bound (r - 4)). pose proof (S1_bound (r - 1)). pose proof (Ch_bound (r - 1) (r - 2) (r - 3)).
  pose proof (Wv_bound r). lia.
Qed.
Lemma T2_bound r : 0 <= T2 r < 2 ^ 36.
Proof. unfold T2. pose proof (S0_bound (r - 1)). pose proof (Maj_bound (r - 1) (r - 2) (r - 3)). lia. Qed.
Lemma compress_row j i r : 0 <= j < nb -> 4 <= i < 68 -> r = SHA_ROWS * j + i ->
  let k := nth (Z.to_nat (i - 4)) ROUND_CST 0 in
  Av r = (T1 r k + T2 r) mod 2 ^ 32 /\ Ev r = (Av (r - 4) + T1 r k) mod 2 ^ 32.
Proof.
  intros Hj Hi Hr k. assert (H0 : 0 <= r < SHA_ROWS * nb) by (rewrite Hr; apply in_rows; lia).
  assert (HR : forall x, 0 <= x <= 4 -> 0 <= r + - x < SHA_ROWS * nb) by (intros x Hx; rewrite Hr; unfold SHA_ROWS in *; lia).
  assert (HK : 0 <= k < 2 ^ 32) by apply cst_bound.
  assert (HE1 := gate_sel r (qf QCompression) _ _ H0 i_compression (or_introl eq_refl)).
  assert (HE2 := gate_sel r (qf QCompression) _ _ H0 i_compression (or_intror (or_introl eq_refl))).
  assert (HQ : eval t r (qf QCompression) = F1).
  { rewrite fix_cur by exact H0. unfold fixed_value. rewrite Hr, round_of by lia. rewrite within_true by lia. reflexivity. }
  assert (HC : eval t r (qf RoundCst) = of_Z p k).
  { rewrite fix_cur by exact H0. unfold fixed_value. rewrite Hr, round_of by lia. rewrite within_true by lia. reflexivity. }
  specialize (HE1 HQ). specialize (HE2 HQ). apply eq_sel in HE1. apply eq_sel in HE2.
  rewrite !ev_sum in HE1, HE2.
  unfold a_, b_, c_, d_, e_, f_, g_, h_, w_ in HE1, HE2.
  pose proof (bits_A r (-1) (HR 1 ltac:(lia))) as BA1. pose proof (bits_A r (-2) (HR 2 ltac:(lia))) as BA2.
  pose proof (bits_A r (-3) (HR 3 ltac:(lia))) as BA3. pose proof (bits_A r (-4) (HR 4 ltac:(lia))) as BA4.
  pose proof (bits_E r (-1) (HR 1 ltac:(lia))) as BE1. pose proof (bits_E r (-2) (HR 2 ltac:(lia))) as BE2.
  pose proof (bits_E r (-3) (HR 3 ltac:(lia))) as BE3. pose proof (bits_E r (-4) (HR 4 ltac:(lia))) as BE4.
  pose proof (bits_W r 0 ltac:(lia)) as BW.
  assert (ET1 : eval t r (Sum (Sum (Sum (Sum (decode_expr (bits_at CE 3 32 (-4)))
        (decode_expr (xor_bits (rotate_expr (bits_at CE 3 32 (-1)) 6) (xor_bits (rotate_expr (bits_at CE 3 32 (-1)) 11) (rotate_expr (bits_at CE 3 32 (-1)) 25)))))
        (decode_expr (select_bits (bits_at CE 3 32 (-1)) (bits_at CE 3 32 (-2)) (bits_at CE 3 32 (-3))))) (qf RoundCst)) (decode_expr (bits_at CW 2 32 0)))
        = of_Z p (T1 r k)).
  { rewrite !ev_sum.
    rewrite (ev_decode t r _ _ BE4), (ev_decode t r _ _ BW), HC.
    rewrite (ev_decode t r _ _ (bits_x3 r _ _ _ _ _ _ (bits_rotate t r _ _ 6 BE1) (bits_rotate t r _ _ 11 BE1) (bits_rotate t r _ _ 25 BE1))).
    rewrite (ev_decode t r _ _ (bits_select t r _ _ _ _ _ _ BE1 BE2 BE3)).
    rewrite <- !of_Z_add. f_equal. rewrite bz_rot3 by (try apply Eb_len; lia). rewrite bz_ch by (rewrite !Eb_len; reflexivity).
    unfold T1, Sigma1. rewrite Z.add_0_r. reflexivity. }
  assert (ET2 : eval t r (Sum (decode_expr (xor_bits (rotate_expr (bits_at CA 3 32 (-1)) 2) (xor_bits (rotate_expr (bits_at CA 3 32 (-1)) 13) (rotate_expr (bits_at CA 3 32 (-1)) 22))))
        (decode_expr (select_bits (xor_bits (bits_at CA 3 32 (-2)) (bits_at CA 3 32 (-3))) (bits_at CA 3 32 (-1)) (bits_at CA 3 32 (-2)))))
        = of_Z p (T2 r)).
  { rewrite !ev_sum.
    rewrite (ev_decode t r _ _ (bits_x3 r _ _ _ _ _ _ (bits_rotate t r _ _ 2 BA1) (bits_rotate t r _ _ 13 BA1) (bits_rotate t r _ _ 22 BA1))).
    rewrite (ev_decode t r _ _ (bits_select t r _ _ _ _ _ _ (bits_xor t r _ _ _ _ BA2 BA3) BA1 BA2)).
    rewrite <- !of_Z_add. f_equal. rewrite bz_rot3 by (try apply Ab_len; lia). rewrite bz_maj by (rewrite !Ab_len; reflexivity).
    reflexivity. }
  pose proof (T1_bound r k HK). pose proof (T2_bound r). pose proof (Av_bound (r - 4)).
  split.
  - change (eval t r (decode_expr new_a_ext) = (eval t r (Sum (Sum (Sum (Sum (decode_expr (bits_at CE 3 32 (-4)))
        (decode_expr (xor_bits (rotate_expr (bits_at CE 3 32 (-1)) 6) (xor_bits (rotate_expr (bits_at CE 3 32 (-1)) 11) (rotate_expr (bits_at CE 3 32 (-1)) 25)))))
        (decode_expr (select_bits (bits_at CE 3 32 (-1)) (bits_at CE 3 32 (-2)) (bits_at CE 3 32 (-3))))) (qf RoundCst)) (decode_expr (bits_at CW 2 32 0)))
     + eval t r (Sum (decode_expr (xor_bits (rotate_expr (bits_at CA 3 32 (-1)) 2) (xor_bits (rotate_expr (bits_at CA 3 32 (-1)) 13) (rotate_expr (bits_at CA 3 32 (-1)) 22))))
        (decode_expr (select_bits (xor_bits (bits_at CA 3 32 (-2)) (bits_at CA 3 32 (-3))) (bits_at CA 3 32 (-1)) (bits_at CA 3 32 (-2))))))%F) in HE1.
    rewrite ET1, ET2, dec_Ax, <- of_Z_add in HE1 by exact H0. apply (ext_eq CA 3 r) in HE1; [exact HE1|lia|lia].
  - change (eval t r (decode_expr new_e_ext) = (eval t r (decode_expr (bits_at CA 3 32 (-4))) + eval t r (Sum (Sum (Sum (Sum (decode_expr (bits_at CE 3 32 (-4)))
        (decode_expr (xor_bits (rotate_expr (bits_at CE 3 32 (-1)) 6) (xor_bits (rotate_expr (bits_at CE 3 32 (-1)) 11) (rotate_expr (bits_at CE 3 32 (-1)) 25)))))
        (decode_expr (select_bits (bits_at CE 3 32 (-1)) (bits_at CE 3 32 (-2)) (bits_at CE 3 32 (-3))))) (qf RoundCst)) (decode_expr (bits_at CW 2 32 0))))%F) in HE2.
    rewrite ET1, dec_Ex, (ev_decode t r _ _ BA4), <- of_Z_add in HE2 by exact H0.
    apply (ext_eq CE 3 r) in HE2; [exact HE2|lia|]. change (bz (Ab (r + -4))) with (Av (r - 4)). lia.
Qed.

(** start and end rows *)
Lemma start_row j i r : 0 <= j < nb -> 0 <= i < 4 -> r = SHA_ROWS * j + i ->
  (advc t CFinal r = F1 -> Av r = nth (Z.to_nat (3 - i)) H_INIT 0 /\ Ev r = nth (Z.to_nat (7 - i)) H_INIT 0) /\
  (advc t CFinal r = F0 -> 0 < j -> Av r = Av (r - 4) /\ Ev r = Ev (r - 4)).
Proof.
  intros Hj Hi Hr. assert (H0 : 0 <= r < SHA_ROWS * nb) by (rewrite Hr; apply in_rows; lia).
  assert (HE1 := gate_sel r (qf QStart) _ _ H0 i_start (or_introl eq_refl)).
  assert (HE2 := gate_sel r (qf QStart) _ _ H0 i_start (or_intror (or_introl eq_refl))).
  assert (HI4 : (i <? 4) = true) by (apply Z.ltb_lt; lia).
  assert (HQ : eval t r (qf QStart) = F1).
  { rewrite fix_cur by exact H0. unfold fixed_value. rewrite Hr, round_of by lia. rewrite HI4. reflexivity. }
  assert (HA : eval t r (qf HA) = of_Z p (nth (Z.to_nat (3 - i)) H_INIT 0)).
  { rewrite fix_cur by exact H0. unfold fixed_value. rewrite Hr, round_of by lia. rewrite HI4. reflexivity. }
  assert (HEc : eval t r (qf HE) = of_Z p (nth (Z.to_nat (7 - i)) H_INIT 0)).
  { rewrite fix_cur by exact H0. unfold fixed_value. rewrite Hr, round_of by lia. rewrite HI4. reflexivity. }
  specialize (HE1 HQ). specialize (HE2 HQ). apply eq_sel in HE1. apply eq_sel in HE2.
  unfold select_expr in HE1, HE2.
  rewrite !ev_sum, !ev_prod in HE1, HE2.
  rewrite ev_sub, adv_cur in HE1, HE2 by exact H0. rewrite dec_Ax, HA in HE1 by exact H0. rewrite dec_Ex, HEc in HE2 by exact H0.
  change (eval t r (cst 1)) with (F1 (p:=p)) in HE1, HE2.
  split.
  - intros HFin. rewrite HFin in HE1, HE2.
    assert (X1 : of_Z p (bz (wordbits CA 0 35 r)) = of_Z p (nth (Z.to_nat (3 - i)) H_INIT 0)) by (rewrite HE1; ring).
    assert (X2 : of_Z p (bz (wordbits CE 0 35 r)) = of_Z p (nth (Z.to_nat (7 - i)) H_INIT 0)) by (rewrite HE2; ring).
    pose proof (init_bound (Z.to_nat (3 - i))). pose proof (init_bound (Z.to_nat (7 - i))).
    apply (ext_eq CA 3 r) in X1; [|lia|lia]. apply (ext_eq CE 3 r) in X2; [|lia|lia].
    rewrite Z.mod_small in X1, X2 by assumption. split; assumption.
  - intros HFin Hj0. rewrite HFin in HE1, HE2.
    assert (HR : 0 <= r + -4 < SHA_ROWS * nb) by (rewrite Hr; unfold SHA_ROWS in *; lia).
    unfold d_ in HE1. unfold h_ in HE2.
    rewrite (ev_decode t r _ _ (bits_A r (-4) HR)) in HE1. rewrite (ev_decode t r _ _ (bits_E r (-4) HR)) in HE2.
    assert (X1 : of_Z p (bz (wordbits CA 0 35 r)) = of_Z p (Av (r - 4))) by (rewrite HE1; change (bz (Ab (r + -4))) with (Av (r - 4)); ring).
    assert (X2 : of_Z p (bz (wordbits CE 0 35 r)) = of_Z p (Ev (r - 4))) by (rewrite HE2; change (bz (Eb (r + -4))) with (Ev (r - 4)); ring).
    pose proof (Av_bound (r - 4)). pose proof (Ev_bound (r - 4)).
    apply (ext_eq CA 3 r) in X1; [|lia|lia]. apply (ext_eq CE 3 r) in X2; [|lia|lia].
    rewrite Z.mod_small in X1, X2 by assumption. split; assumption.
Qed.
Lemma end_row j i r : 0 <= j < nb -> 68 <= i < 72 -> r = SHA_ROWS * j + i ->
  Av r = (Av (r - 4) + Av (r - 68)) mod 2 ^ 32 /\ Ev r = (Ev (r - 4) + Ev (r - 68)) mod 2 ^ 32.
Proof.
  intros Hj Hi Hr. assert (H0 : 0 <= r < SHA_ROWS * nb) by (rewrite Hr; apply in_rows; lia).
  assert (HR1 : 0 <= r + -4 < SHA_ROWS * nb) by (rewrite Hr; unfold SHA_ROWS in *; lia).
  assert (HR2 : 0 <= r + -68 < SHA_ROWS * nb) by (rewrite Hr; unfold SHA_ROWS in *; lia).
  assert (HE1 := gate_sel r (qf QEnd) _ _ H0 i_end (or_introl eq_refl)).
  assert (HE2 := gate_sel r (qf QEnd) _ _ H0 i_end (or_intror (or_introl eq_refl))).
  assert (HQ : eval t r (qf QEnd) = F1).
  { rewrite fix_cur by exact H0. unfold fixed_value. rewrite Hr, round_of by lia. rewrite (proj2 (Z.leb_le 68 i)) by lia. reflexivity. }
  specialize (HE1 HQ). specialize (HE2 HQ). apply eq_sel in HE1. apply eq_sel in HE2.
  rewrite !ev_sum in HE1, HE2.
  unfold d_, d_68 in HE1. unfold h_, h_68 in HE2.
  rewrite dec_Ax, (ev_decode t r _ _ (bits_A r (-4) HR1)), (ev_decode t r _ _ (bits_A r (-68) HR2)), <- of_Z_add in HE1 by exact H0.
  rewrite dec_Ex, (ev_decode t r _ _ (bits_E r (-4) HR1)), (ev_decode t r _ _ (bits_E r (-68) HR2)), <- of_Z_add in HE2 by exact H0.
  change (bz (Ab (r + -4))) with (Av (r - 4)) in HE1. change (bz (Ab (r + -68))) with (Av (r - 68)) in HE1.
  change (bz (Eb (r + -4))) with (Ev (r - 4)) in HE2. change (bz (Eb (r + -68))) with (Ev (r - 68)) in HE2.
  pose proof (Av_bound (r - 4)). pose proof (Ev_bound (r - 4)). pose proof (Av_bound (r - 68)). pose proof (Ev_bound (r - 68)).
  apply (ext_eq CA 3 r) in HE1; [|lia|lia]. apply (ext_eq CE 3 r) in HE2; [|lia|lia]. split; assumption.
Qed.
End Rows.
