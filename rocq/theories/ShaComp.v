(** Rows generated for a chain of SHA-256 blocks satisfy every gate of the circuit. *)
From Coq Require Import ZArith Lia List Bool Ring.
From Verif Require Import Field Spec ShaSpec ShaCircuit ShaBits ShaEval ShaRows ShaBlock ShaPad ShaMsg ShaWitness ShaGen.
Import ListNotations.
Local Open Scope Z_scope.
Local Opaque schedule W St.

Lemma St_0 d : St d 0 = d_hs d. Proof. Transparent St. reflexivity. Qed.
Local Opaque St.
Lemma nth_tobits n v k : (k < n)%nat -> nth k (tobits n v) false = Z.testbit v (Z.of_nat (n - 1 - k)).
Proof.
  intros H. unfold tobits. set (f := fun i : nat => Z.testbit v (Z.of_nat (n - 1 - i))).
  rewrite (nth_indep _ false (f 0%nat)) by (rewrite map_length, seq_length; exact H). rewrite map_nth, seq_nth by exact H. reflexivity.
Qed.
Lemma tobits_skip s n v : skipn s (tobits (s + n) v) = tobits n v.
Proof. induction s as [|s IH]; [reflexivity|]. cbn [Nat.add]. rewrite tobits_S. exact IH. Qed.

(** * A valid chain of blocks *)
Definition dval d : Prop :=
  dok d /\ 8 * Z.of_nat (d_n d) < 2 ^ 32 /\ d_fin d = (d_n d + 9 <=? 64 * S (d_idx d))%nat /\ (d_idx d = 0%nat -> d_hs d = sha_H0) /\
  (forall k, (k < 64)%nat -> (d_n d <= 64 * d_idx d + k)%nat -> (k < 60)%nat \/ d_fin d = false ->
     nth k (d_bytes d) 0 = if (d_n d =? 64 * d_idx d + k)%nat then 128 else 0) /\
  (d_fin d = true -> be_val (skipn 60 (d_bytes d)) = 8 * Z.of_nat (d_n d)).
Definition linked d d' : Prop :=
  if d_fin d then d_idx d' = 0%nat else d_n d' = d_n d /\ d_idx d' = S (d_idx d) /\ d_hs d' = hs_out d.
Definition d0 : bdesc := BD sha_H0 [] 0 0 false.
Definition drows d : list vrow := map (drow d) (seq 0 72).

(** the working variables of round [n] are in the rows before it *)
Definition sa (s : hstate) (k : nat) : Z := nth k [ha s; hb s; hc s; hd s] 0.
Definition se (s : hstate) (k : nat) : Z := nth k [he s; hf s; hg s; hh s] 0.
Lemma sa_b s k : hsb s -> 0 <= sa s k < 2 ^ 32.
Proof. intros [(A1 & A2 & A3 & A4) _]. unfold sa. do 4 (destruct k as [|k]; [assumption|]). destruct k; cbn; lia. Qed.
Lemma se_b s k : hsb s -> 0 <= se s k < 2 ^ 32.
Proof. intros [_ (A1 & A2 & A3 & A4)]. unfold se. do 4 (destruct k as [|k]; [assumption|]). destruct k; cbn; lia. Qed.
Lemma av_at d n k : dok d -> (n <= 64)%nat -> (k < 4)%nat -> av d (3 + n - k) mod 2 ^ 32 = sa (St d n) k.
Proof.
  intros H. revert k. induction n as [|n IH]; intros k Hn Hk.
  - rewrite St_0. unfold av. rewrite (proj2 (Nat.ltb_lt (3 + 0 - k) 4)) by lia. replace (3 - (3 + 0 - k))%nat with k by lia.
    change (nth k _ 0) with (sa (d_hs d) k). apply Z.mod_small. apply sa_b. apply H.
  - destruct k as [|k].
    + unfold av. rewrite (proj2 (Nat.ltb_ge (3 + S n - 0) 4)), (proj2 (Nat.ltb_lt (3 + S n - 0) 68)) by lia.
      replace (3 + S n - 0 - 4)%nat with n by lia. symmetry. apply St_a; [exact H|lia].
    + replace (3 + S n - S k)%nat with (3 + n - k)%nat by lia. rewrite IH by lia. rewrite (St_S d n) by (assumption || lia).
      unfold sa, sha_round. cbn [ha hb hc hd]. destruct k as [|[|[|k]]]; try reflexivity. lia.
Qed.
Lemma ev_at' d n k : dok d -> (n <= 64)%nat -> (k < 4)%nat -> ev d (3 + n - k) mod 2 ^ 32 = se (St d n) k.
Proof.
  intros H. revert k. induction n as [|n IH]; intros k Hn Hk.
  - rewrite St_0. unfold ev. rewrite (proj2 (Nat.ltb_lt (3 + 0 - k) 4)) by lia. replace (3 - (3 + 0 - k))%nat with k by lia.
    change (nth k _ 0) with (se (d_hs d) k). apply Z.mod_small. apply se_b. apply H.
  - destruct k as [|k].
    + unfold ev. rewrite (proj2 (Nat.ltb_ge (3 + S n - 0) 4)), (proj2 (Nat.ltb_lt (3 + S n - 0) 68)) by lia.
      replace (3 + S n - 0 - 4)%nat with n by lia. symmetry. apply St_e; [exact H|lia].
    + replace (3 + S n - S k)%nat with (3 + n - k)%nat by lia. rewrite IH by lia. rewrite (St_S d n) by (assumption || lia).
      unfold se, sha_round. cbn [he hf hg hh]. destruct k as [|[|[|k]]]; try reflexivity. lia.
Qed.
Lemma wv_at d i : dok d -> (4 <= i < 68)%nat -> wv d i mod 2 ^ 32 = W d (i - 4).
Proof.
  intros H Hi. unfold wv. rewrite (proj2 (Nat.ltb_ge i 4)), (proj2 (Nat.ltb_lt i 68)) by lia. symmetry. apply W_ext; [exact H|lia].
Qed.
Lemma out_at d k : dok d -> (k < 4)%nat -> av d (71 - k) mod 2 ^ 32 = sa (hs_out d) k /\ ev d (71 - k) mod 2 ^ 32 = se (hs_out d) k.
Proof.
  intros H Hk. unfold av, ev. rewrite (proj2 (Nat.ltb_ge (71 - k) 4)), (proj2 (Nat.ltb_ge (71 - k) 68)) by lia.
  replace (71 - (71 - k))%nat with k by lia. unfold sa, se, hs_out, hs_add. cbn [ha hb hc hd he hf hg hh].
  destruct k as [|[|[|[|k]]]]; try (split; reflexivity). lia.
Qed.
Lemma wv_b d i : dok d -> 0 <= wv d i < 2 ^ 34.
Proof.
  intros H. unfold wv. destruct (i <? 4)%nat; [lia|]. destruct (Nat.ltb_spec i 68); [|lia]. apply wext_bound; [exact H|lia].
Qed.
Lemma av_b d i : dok d -> 0 <= av d i < 2 ^ 35.
Proof.
  intros H. unfold av. destruct (i <? 4)%nat.
  - pose proof (sa_b (d_hs d) (3 - i) (proj1 H)) as B. unfold sa in B. lia.
  - destruct (Nat.ltb_spec i 68).
    + unfold aext. pose proof (St_bound d (i - 4) H ltac:(lia)) as B. pose proof (t1_bound _ _ _ B (cstb (i - 4)) (W_bound d (i - 4) H)).
      pose proof (t2_bound _ B). lia.
    + pose proof (St_bound d 64 H ltac:(lia)) as [(A1 & A2 & A3 & A4) _]. destruct H as [[(B1 & B2 & B3 & B4) _] _].
      generalize (71 - i)%nat. intros k. destruct k as [|[|[|[|[|k]]]]]; cbn [nth]; lia.
Qed.
Lemma ev_b d i : dok d -> 0 <= ev d i < 2 ^ 35.
Proof.
  intros H. unfold ev. destruct (i <? 4)%nat.
  - pose proof (se_b (d_hs d) (3 - i) (proj1 H)) as B. unfold se in B. lia.
  - destruct (Nat.ltb_spec i 68).
    + unfold eext. pose proof (St_bound d (i - 4) H ltac:(lia)) as B. pose proof (t1_bound _ _ _ B (cstb (i - 4)) (W_bound d (i - 4) H)).
      pose proof (proj1 B). lia.
    + pose proof (St_bound d 64 H ltac:(lia)) as [_ (A1 & A2 & A3 & A4)]. destruct H as [[_ (B1 & B2 & B3 & B4)] _].
      generalize (71 - i)%nat. intros k. destruct k as [|[|[|[|[|k]]]]]; cbn [nth]; lia.
Qed.

Lemma nth_drows bds j i : (j < length bds)%nat -> (i < 72)%nat -> nth (72 * j + i) (flat_map drows bds) no_row = drow (nth j bds d0) i.
Proof.
  revert j. induction bds as [|d bds IH]; intros j Hj Hi; [cbn [length] in Hj; lia|]. cbn [flat_map].
  assert (L : length (drows d) = 72%nat) by (unfold drows; now rewrite map_length, seq_length).
  destruct j as [|j].
  - rewrite Nat.mul_0_r, Nat.add_0_l. rewrite app_nth1 by (rewrite L; exact Hi). cbn [nth]. unfold drows.
    rewrite (nth_indep _ no_row (drow d 0)) by (rewrite map_length, seq_length; exact Hi). rewrite map_nth, seq_nth by exact Hi. reflexivity.
  - rewrite app_nth2 by (rewrite L; lia). rewrite L. replace (72 * S j + i - 72)%nat with (72 * j + i)%nat by lia.
    cbn [length] in Hj. cbn [nth]. apply IH; lia.
Qed.
Lemma drows_len bds : length (flat_map drows bds) = (72 * length bds)%nat.
Proof. induction bds as [|d bds IH]; [reflexivity|]. cbn [flat_map]. rewrite app_length, IH. unfold drows. rewrite map_length, seq_length. cbn [length]. lia. Qed.

Section Comp.
Context {p : positive}.
Notation Fp := (F p).
Add Ring Fring : (F_ring p) (morphism (F_morph p), constants [Fcst]).
Variable bds : list bdesc.
Variable n : Z.
Variable junk : acol -> Z -> Fp.
Notation nb := (Z.of_nat (length bds)).
Hypothesis Hn : SHA_ROWS * nb <= n.
Hypothesis Hval : Forall dval bds.
Hypothesis Hlink : forall j, (S j < length bds)%nat -> linked (nth j bds d0) (nth (S j) bds d0).
Hypothesis Hfirst : d_idx (nth 0 bds d0) = 0%nat.
Notation t := (assigned_table n junk (flat_map drows bds)).
Notation D j := (nth j bds d0).

Definition rz (j i : nat) : Z := SHA_ROWS * Z.of_nat j + Z.of_nat i.
Notation okr j i := ((j < length bds)%nat /\ (i < 72)%nat).
Lemma rz_ok j i : okr j i -> 0 <= rz j i < SHA_ROWS * nb.
Proof. unfold rz, SHA_ROWS. lia. Qed.
Lemma rz_round j i : (i < 72)%nat -> rz j i mod SHA_ROWS = Z.of_nat i.
Proof. intros. unfold rz, SHA_ROWS. rewrite Z.add_comm, Z.mul_comm, Z.mod_add, Z.mod_small; lia. Qed.
Lemma t_rows : SHA_ROWS * nb <= rows t. Proof. exact Hn. Qed.
Lemma t_len : Z.of_nat (length (flat_map drows bds)) = SHA_ROWS * nb.
Proof. rewrite drows_len. unfold SHA_ROWS. lia. Qed.
Lemma t_fixed : fixed_assigned t nb.
Proof. intros c r Hr. unfold assigned_table. cbn [fixc]. now rewrite t_len. Qed.
Lemma adv c j i : okr j i -> advc t c (rz j i) = cell (drow (D j) i) c (rz j i).
Proof.
  intros H. pose proof (rz_ok j i H) as B. unfold assigned_table. cbn [advc]. rewrite t_len, (proj2 (Z.ltb_lt _ _)) by lia.
  f_equal. replace (Z.to_nat (rz j i)) with (72 * j + i)%nat by (unfold rz, SHA_ROWS; lia). apply nth_drows; apply H.
Qed.
Lemma at_ c j i rot j' i' : okr j' i' -> rz j i + rot = rz j' i' -> eval t (rz j i) (Advice c rot) = cell (drow (D j') i') c (rz j' i').
Proof. intros H E. rewrite (adv_at t nb t_rows) by (rewrite E; now apply rz_ok). rewrite E. now apply adv. Qed.
Lemma cur c j i : okr j i -> eval t (rz j i) (Advice c 0) = cell (drow (D j) i) c (rz j i).
Proof. intros H. apply at_; [exact H|lia]. Qed.
Lemma fx c j i : okr j i -> eval t (rz j i) (qf c) = of_Z p (fixed_value c (rz j i)).
Proof. intros H. apply (fix_cur t nb t_rows t_fixed). now apply rz_ok. Qed.
Lemma dv j : (j < length bds)%nat -> dval (D j).
Proof. intros H. exact (proj1 (Forall_forall _ _) Hval _ (nth_In _ _ H)). Qed.
Lemma dk j : (j < length bds)%nat -> dok (D j). Proof. intros. now apply dv. Qed.

(** ** the bits of the words *)
Lemma c_w d i k r : dok d -> (k < 34)%nat -> cell (p:=p) (drow d i) (CW k) r = fbool (Z.testbit (wv d i) (Z.of_nat (33 - k))).
Proof. intros H Hk. unfold cell, drow, add_row. cbn [v_w]. rewrite word_bits by (try apply wv_b; try assumption; lia). now rewrite nth_tobits by lia. Qed.
Lemma c_a d i k r : dok d -> (k < 35)%nat -> cell (p:=p) (drow d i) (CA k) r = fbool (Z.testbit (av d i) (Z.of_nat (34 - k))).
Proof. intros H Hk. unfold cell, drow, add_row. cbn [v_a]. rewrite word_bits by (try apply av_b; try assumption; lia). now rewrite nth_tobits by lia. Qed.
Lemma c_e d i k r : dok d -> (k < 35)%nat -> cell (p:=p) (drow d i) (CE k) r = fbool (Z.testbit (ev d i) (Z.of_nat (34 - k))).
Proof. intros H Hk. unfold cell, drow, add_row. cbn [v_e]. rewrite word_bits by (try apply ev_b; try assumption; lia). now rewrite nth_tobits by lia. Qed.
Lemma b_w s m j i rot j' i' : (s + m = 34)%nat -> okr j' i' -> rz j i + rot = rz j' i' -> bits t (rz j i) (bits_at CW s m rot) (tobits m (wv (D j') i')).
Proof.
  intros Hs H E. unfold bits, bits_at, tobits. rewrite !map_map. apply map_ext_in. intros k Hk. apply in_seq in Hk.
  rewrite (at_ _ _ _ _ j' i') by assumption. rewrite c_w by (try (apply dk; apply H); lia). do 3 f_equal. lia.
Qed.
Lemma b_a s m j i rot j' i' : (s + m = 35)%nat -> okr j' i' -> rz j i + rot = rz j' i' -> bits t (rz j i) (bits_at CA s m rot) (tobits m (av (D j') i')).
Proof.
  intros Hs H E. unfold bits, bits_at, tobits. rewrite !map_map. apply map_ext_in. intros k Hk. apply in_seq in Hk.
  rewrite (at_ _ _ _ _ j' i') by assumption. rewrite c_a by (try (apply dk; apply H); lia). do 3 f_equal. lia.
Qed.
Lemma b_e s m j i rot j' i' : (s + m = 35)%nat -> okr j' i' -> rz j i + rot = rz j' i' -> bits t (rz j i) (bits_at CE s m rot) (tobits m (ev (D j') i')).
Proof.
  intros Hs H E. unfold bits, bits_at, tobits. rewrite !map_map. apply map_ext_in. intros k Hk. apply in_seq in Hk.
  rewrite (at_ _ _ _ _ j' i') by assumption. rewrite c_e by (try (apply dk; apply H); lia). do 3 f_equal. lia.
Qed.
Lemma v_w32 j i : (j < length bds)%nat -> bz (tobits 32 (wv (D j) i)) = wv (D j) i mod 2 ^ 32.
Proof. intros H. apply bz_tobits. apply wv_b. now apply dk. Qed.
Lemma v_a32 j i : (j < length bds)%nat -> bz (tobits 32 (av (D j) i)) = av (D j) i mod 2 ^ 32.
Proof. intros H. apply bz_tobits. apply av_b. now apply dk. Qed.
Lemma v_e32 j i : (j < length bds)%nat -> bz (tobits 32 (ev (D j) i)) = ev (D j) i mod 2 ^ 32.
Proof. intros H. apply bz_tobits. apply ev_b. now apply dk. Qed.
Lemma x_w j i : okr j i -> eval t (rz j i) (decode_expr w_ext) = of_Z p (wv (D j) i).
Proof.
  intros H. unfold w_ext. rewrite (ev_decode t _ _ _ (b_w 0 34 j i 0 j i eq_refl H ltac:(lia))). pose proof (wv_b (D j) i (dk j ltac:(lia))) as B.
  rewrite bz_tobits by lia. change (Z.of_nat 34) with 34. now rewrite Z.mod_small by lia.
Qed.
Lemma x_a j i : okr j i -> eval t (rz j i) (decode_expr new_a_ext) = of_Z p (av (D j) i).
Proof.
  intros H. unfold new_a_ext. rewrite (ev_decode t _ _ _ (b_a 0 35 j i 0 j i eq_refl H ltac:(lia))). pose proof (av_b (D j) i (dk j ltac:(lia))) as B.
  rewrite bz_tobits by lia. change (Z.of_nat 35) with 35. now rewrite Z.mod_small by lia.
Qed.
Lemma x_e j i : okr j i -> eval t (rz j i) (decode_expr new_e_ext) = of_Z p (ev (D j) i).
Proof.
  intros H. unfold new_e_ext. rewrite (ev_decode t _ _ _ (b_e 0 35 j i 0 j i eq_refl H ltac:(lia))). pose proof (ev_b (D j) i (dk j ltac:(lia))) as B.
  rewrite bz_tobits by lia. change (Z.of_nat 35) with 35. now rewrite Z.mod_small by lia.
Qed.

(** ** gates *)
Notation holds r l := (Forall (fun e => eval t r e = F0) l).
Lemma g_off r s l : eval t r s = F0 -> holds r (gate s l).
Proof. intros H. apply Forall_map, Forall_forall. intros e _. cbn [eval]. rewrite H. ring. Qed.
Lemma g_on r s l : holds r l -> holds r (gate s l).
Proof. intros H. apply Forall_map. eapply Forall_impl; [|exact H]. intros e E. cbn [eval]. rewrite E. ring. Qed.
Lemma g_sel r s l (b : bool) : eval t r s = fbool b -> (b = true -> holds r l) -> holds r (gate s l).
Proof. intros E H. destruct b; [apply g_on; auto|now apply g_off]. Qed.
Lemma eq0 r a b : eval t r a = eval t r b -> eval t r (require_equal a b) = F0.
Proof. intros H. unfold require_equal. rewrite ev_sub, H. ring. Qed.
Lemma one r e : eval t r e = F0 -> holds r [e]. Proof. intros. now constructor. Qed.
Lemma two r e e' : eval t r e = F0 -> eval t r e' = F0 -> holds r [e; e']. Proof. intros. repeat constructor; assumption. Qed.
Lemma bool0 r e b : eval t r e = fbool b -> eval t r (require_boolean e) = F0.
Proof. intros H. unfold require_boolean. rewrite ev_prod, ev_sub, H. cbn [eval cst]. fold (@F1 p). destruct b; unfold fbool; ring. Qed.
(** selectors *)
Definition sel (c : fcol) (j i : nat) : bool :=
  match c with
  | QEnable => true | QFirst => (j =? 0)%nat && (i =? 0)%nat | QExtend => ((20 <=? i) && (i <? 68))%nat | QStart => (i <? 4)%nat
  | QCompression => ((4 <=? i) && (i <? 68))%nat | QEnd => (68 <=? i)%nat | QInput => ((4 <=? i) && (i <? 20))%nat
  | QInputLast => (i =? 19)%nat | QSqueeze => (i =? 71)%nat | _ => false
  end.
Definition is_sel c := match c with RoundCst | HA | HE => false | _ => true end.
Lemma fs c j i : okr j i -> is_sel c = true -> eval t (rz j i) (qf c) = fbool (sel c j i).
Proof.
  intros H Hc. rewrite fx by exact H. unfold fixed_value. rewrite rz_round by apply H. unfold within.
  destruct c; try discriminate Hc; cbn [sel]; rewrite ?of_b2z; try reflexivity; f_equal.
  all: apply Bool.eq_iff_eq_true; rewrite ?andb_true_iff, ?Z.eqb_eq, ?Z.leb_le, ?Z.ltb_lt, ?Nat.eqb_eq, ?Nat.leb_le, ?Nat.ltb_lt; unfold rz, SHA_ROWS; lia.
Qed.
Lemma fb_sub a b : (b = true -> a = true) -> (fbool a - fbool b)%F = fbool (p:=p) (a && negb b).
Proof. intros H. destruct a, b; unfold fbool; cbn [andb negb]; try ring. discriminate (H eq_refl). Qed.
Lemma fb_not b : (F1 - fbool b)%F = fbool (p:=p) (negb b).
Proof. destruct b; unfold fbool; cbn [negb]; ring. Qed.
Lemma fb_or a b : a && b = false -> (fbool a + fbool b)%F = fbool (p:=p) (a || b).
Proof. destruct a, b; unfold fbool; cbn [andb orb]; intros; try ring. discriminate. Qed.
Lemma fb_and a b : (fbool a * fbool b)%F = fbool (p:=p) (a && b).
Proof. destruct a, b; unfold fbool; cbn [andb]; ring. Qed.
Lemma ev_cst1 r : eval t r (cst 1) = F1. Proof. reflexivity. Qed.

Lemma h_input_checks j i : okr j i -> holds (rz j i) g_input_checks.
Proof.
  intros H. apply g_on. apply Forall_app. split; [|apply Forall_app; split]; apply Forall_map, Forall_forall; intros e He;
    unfold w_ext, new_a_ext, new_e_ext, bits_at in He; apply in_map_iff in He; destruct He as (k & <- & Hk); apply in_seq in Hk.
  - eapply bool0. rewrite cur by exact H. apply c_w; [apply dk; lia|lia].
  - eapply bool0. rewrite cur by exact H. apply c_a; [apply dk; lia|lia].
  - eapply bool0. rewrite cur by exact H. apply c_e; [apply dk; lia|lia].
Qed.

Lemma rz_sub j i k : (k <= i)%nat -> rz j i + - Z.of_nat k = rz j (i - k). Proof. unfold rz. lia. Qed.
Lemma dw j i k : okr j i -> (4 <= i - k)%nat -> (i < 68)%nat -> bits t (rz j i) (bits_at CW 2 32 (- Z.of_nat k)) (tobits 32 (wv (D j) (i - k))) /\
  bz (tobits 32 (wv (D j) (i - k))) = W (D j) (i - k - 4).
Proof.
  intros H Hk Hi. split; [apply b_w; [reflexivity|lia|apply rz_sub; lia]|]. rewrite v_w32 by lia. apply wv_at; [apply dk; lia|lia].
Qed.
Lemma da j i m k : okr j i -> (4 <= i)%nat -> (i < 72)%nat -> (m = i - 4)%nat -> (m <= 64)%nat -> (1 <= k <= 4)%nat ->
  bits t (rz j i) (bits_at CA 3 32 (- Z.of_nat k)) (tobits 32 (av (D j) (i - k))) /\
  bz (tobits 32 (av (D j) (i - k))) = sa (St (D j) m) (k - 1).
Proof.
  intros H Hi Hi2 Hm Hm2 Hk. split; [apply b_a; [reflexivity|lia|apply rz_sub; lia]|]. rewrite v_a32 by lia.
  replace (i - k)%nat with (3 + m - (k - 1))%nat by lia. apply av_at; [apply dk; lia|lia|lia].
Qed.
Lemma de j i m k : okr j i -> (4 <= i)%nat -> (i < 72)%nat -> (m = i - 4)%nat -> (m <= 64)%nat -> (1 <= k <= 4)%nat ->
  bits t (rz j i) (bits_at CE 3 32 (- Z.of_nat k)) (tobits 32 (ev (D j) (i - k))) /\
  bz (tobits 32 (ev (D j) (i - k))) = se (St (D j) m) (k - 1).
Proof.
  intros H Hi Hi2 Hm Hm2 Hk. split; [apply b_e; [reflexivity|lia|apply rz_sub; lia]|]. rewrite v_e32 by lia.
  replace (i - k)%nat with (3 + m - (k - 1))%nat by lia. apply ev_at'; [apply dk; lia|lia|lia].
Qed.
Lemma tb32 v : length (tobits 32 v) = 32%nat. Proof. apply tobits_len. Qed.

Lemma h_w_extend j i : okr j i -> holds (rz j i) g_w_extend.
Proof.
  intros H. unfold g_w_extend. cbv zeta. apply (g_sel _ _ _ (sel QExtend j i)); [now apply fs|]. cbn [sel]. rewrite andb_true_iff, Nat.leb_le, Nat.ltb_lt.
  intros Hi. apply one, eq0. rewrite x_w by exact H. rewrite !ev_sum.
  destruct (dw j i 16 H) as [B16 V16]; [lia..|]. destruct (dw j i 15 H) as [B15 V15]; [lia..|].
  destruct (dw j i 7 H) as [B7 V7]; [lia..|]. destruct (dw j i 2 H) as [B2 V2]; [lia..|].
  change (bits_at CW 2 32 (- Z.of_nat 16)) with (w_16 (p:=p)) in B16. change (bits_at CW 2 32 (- Z.of_nat 15)) with (w_15 (p:=p)) in B15.
  change (bits_at CW 2 32 (- Z.of_nat 7)) with (w_7 (p:=p)) in B7. change (bits_at CW 2 32 (- Z.of_nat 2)) with (w_2 (p:=p)) in B2.
  rewrite (ev_decode t _ _ _ B16), (ev_decode t _ _ _ B7).
  rewrite (ev_decode t _ _ _ (bits_x3 t _ _ _ _ _ _ _ (bits_rotate t _ _ _ 7 B15) (bits_rotate t _ _ _ 18 B15) (bits_shift t _ _ _ 3 B15))).
  rewrite (ev_decode t _ _ _ (bits_x3 t _ _ _ _ _ _ _ (bits_rotate t _ _ _ 17 B2) (bits_rotate t _ _ _ 19 B2) (bits_shift t _ _ _ 10 B2))).
  rewrite !(bz_rot2s (p:=p)) by (try apply tb32; lia). rewrite V16, V15, V7, V2. rewrite <- !of_Z_add. f_equal.
  unfold wv. rewrite (proj2 (Nat.ltb_ge i 4)), (proj2 (Nat.ltb_lt i 68)) by lia. unfold wext. rewrite (proj2 (Nat.ltb_ge (i - 4) 16)) by lia.
  unfold sigma0, sigma1. replace (i - 4 - 16)%nat with (i - 16 - 4)%nat by lia. replace (i - 4 - 15)%nat with (i - 15 - 4)%nat by lia.
  replace (i - 4 - 7)%nat with (i - 7 - 4)%nat by lia. replace (i - 4 - 2)%nat with (i - 2 - 4)%nat by lia. reflexivity.
Qed.
Lemma h_compression j i : okr j i -> holds (rz j i) g_compression.
Proof.
  intros H. unfold g_compression. cbv zeta. apply (g_sel _ _ _ (sel QCompression j i)); [now apply fs|]. cbn [sel]. rewrite andb_true_iff, Nat.leb_le, Nat.ltb_lt.
  intros Hi. remember (i - 4)%nat as m eqn:Em.
  destruct (da j i m 1 H) as [BA1 VA1]; [lia..|]. destruct (da j i m 2 H) as [BA2 VA2]; [lia..|].
  destruct (da j i m 3 H) as [BA3 VA3]; [lia..|]. destruct (da j i m 4 H) as [BA4 VA4]; [lia..|].
  destruct (de j i m 1 H) as [BE1 VE1]; [lia..|]. destruct (de j i m 2 H) as [BE2 VE2]; [lia..|].
  destruct (de j i m 3 H) as [BE3 VE3]; [lia..|]. destruct (de j i m 4 H) as [BE4 VE4]; [lia..|].
  destruct (dw j i 0 H) as [BW VW]; [lia..|].
  change (bits_at CA 3 32 (- Z.of_nat 1)) with (a_ (p:=p)) in BA1. change (bits_at CA 3 32 (- Z.of_nat 2)) with (b_ (p:=p)) in BA2.
  change (bits_at CA 3 32 (- Z.of_nat 3)) with (c_ (p:=p)) in BA3. change (bits_at CA 3 32 (- Z.of_nat 4)) with (ShaCircuit.d_ (p:=p)) in BA4.
  change (bits_at CE 3 32 (- Z.of_nat 1)) with (e_ (p:=p)) in BE1. change (bits_at CE 3 32 (- Z.of_nat 2)) with (f_ (p:=p)) in BE2.
  change (bits_at CE 3 32 (- Z.of_nat 3)) with (g_ (p:=p)) in BE3. change (bits_at CE 3 32 (- Z.of_nat 4)) with (h_ (p:=p)) in BE4.
  change (bits_at CW 2 32 (- Z.of_nat 0)) with (w_ (p:=p)) in BW. rewrite !Nat.sub_0_r in BW, VW. rewrite <- Em in VW.
  cbn [Nat.sub] in VA1, VA2, VA3, VA4, VE1, VE2, VE3, VE4. unfold sa in VA1, VA2, VA3, VA4. unfold se in VE1, VE2, VE3, VE4. cbn [nth] in *.
  assert (HC : eval t (rz j i) (qf RoundCst) = of_Z p (nth m sha_K 0)).
  { rewrite fx by exact H. unfold fixed_value. rewrite rz_round by apply H. rewrite (within_true (p:=p)) by lia. rewrite K_eq. do 2 f_equal. lia. }
  apply two; apply eq0; [rewrite x_a by exact H|rewrite x_e by exact H]; rewrite !ev_sum;
    rewrite (ev_decode t _ _ _ BE4), (ev_decode t _ _ _ BW), HC;
    rewrite (ev_decode t _ _ _ (bits_x3 t _ _ _ _ _ _ _ (bits_rotate t _ _ _ 6 BE1) (bits_rotate t _ _ _ 11 BE1) (bits_rotate t _ _ _ 25 BE1)));
    rewrite (ev_decode t _ _ _ (bits_select t _ _ _ _ _ _ _ BE1 BE2 BE3)).
  - rewrite (ev_decode t _ _ _ (bits_x3 t _ _ _ _ _ _ _ (bits_rotate t _ _ _ 2 BA1) (bits_rotate t _ _ _ 13 BA1) (bits_rotate t _ _ _ 22 BA1))).
    rewrite (ev_decode t _ _ _ (bits_select t _ _ _ _ _ _ _ (bits_xor t _ _ _ _ _ BA2 BA3) BA1 BA2)).
    rewrite !(bz_rot3 (p:=p)) by (try apply tb32; lia). rewrite bz_ch, bz_maj by (rewrite !tb32; reflexivity).
    rewrite VA1, VA2, VA3, VE1, VE2, VE3, VE4, VW. rewrite <- !of_Z_add. f_equal.
    unfold av. rewrite (proj2 (Nat.ltb_ge i 4)), (proj2 (Nat.ltb_lt i 68)) by lia. rewrite <- Em. unfold aext, t1, t2, Sigma0, Sigma1. reflexivity.
  - rewrite (ev_decode t _ _ _ BA4).
    rewrite !(bz_rot3 (p:=p)) by (try apply tb32; lia). rewrite bz_ch by (rewrite !tb32; reflexivity).
    rewrite VA4, VE1, VE2, VE3, VE4, VW. rewrite <- !of_Z_add. f_equal.
    unfold ev. rewrite (proj2 (Nat.ltb_ge i 4)), (proj2 (Nat.ltb_lt i 68)) by lia. rewrite <- Em. unfold eext, t1, Sigma1. reflexivity.
Qed.
Lemma h_end j i : okr j i -> holds (rz j i) g_end.
Proof.
  intros H. unfold g_end. apply (g_sel _ _ _ (sel QEnd j i)); [now apply fs|]. cbn [sel]. rewrite Nat.leb_le. intros Hi.
  assert (B1 : bits t (rz j i) (ShaCircuit.d_) (tobits 32 (av (D j) (i - 4)))) by (apply b_a; [reflexivity|lia|apply (rz_sub j i 4); lia]).
  assert (B2 : bits t (rz j i) d_68 (tobits 32 (av (D j) (i - 68)))) by (apply b_a; [reflexivity|lia|apply (rz_sub j i 68); lia]).
  assert (B3 : bits t (rz j i) h_ (tobits 32 (ev (D j) (i - 4)))) by (apply b_e; [reflexivity|lia|apply (rz_sub j i 4); lia]).
  assert (B4 : bits t (rz j i) h_68 (tobits 32 (ev (D j) (i - 68)))) by (apply b_e; [reflexivity|lia|apply (rz_sub j i 68); lia]).
  assert (K := dk j (proj1 H)).
  assert (V1 : av (D j) (i - 4) mod 2 ^ 32 = sa (St (D j) 64) (71 - i)) by (replace (i - 4)%nat with (3 + 64 - (71 - i))%nat by lia; apply av_at; [exact K|lia|lia]).
  assert (V2 : av (D j) (i - 68) mod 2 ^ 32 = sa (St (D j) 0) (71 - i)) by (replace (i - 68)%nat with (3 + 0 - (71 - i))%nat by lia; apply av_at; [exact K|lia|lia]).
  assert (V3 : ev (D j) (i - 4) mod 2 ^ 32 = se (St (D j) 64) (71 - i)) by (replace (i - 4)%nat with (3 + 64 - (71 - i))%nat by lia; apply ev_at'; [exact K|lia|lia]).
  assert (V4 : ev (D j) (i - 68) mod 2 ^ 32 = se (St (D j) 0) (71 - i)) by (replace (i - 68)%nat with (3 + 0 - (71 - i))%nat by lia; apply ev_at'; [exact K|lia|lia]).
  apply two; apply eq0; [rewrite x_a by exact H|rewrite x_e by exact H]; rewrite ev_sum.
  - rewrite (ev_decode t _ _ _ B1), (ev_decode t _ _ _ B2), !v_a32, V1, V2 by lia. rewrite <- of_Z_add. f_equal. rewrite St_0. unfold av.
    rewrite (proj2 (Nat.ltb_ge i 4)), (proj2 (Nat.ltb_ge i 68)) by lia. unfold sa. assert (HX : (71 - i < 4)%nat) by lia. revert HX.
    generalize (71 - i)%nat. intros [|[|[|[|k]]]] HX; cbn [nth]; try lia.
  - rewrite (ev_decode t _ _ _ B3), (ev_decode t _ _ _ B4), !v_e32, V3, V4 by lia. rewrite <- of_Z_add. f_equal. rewrite St_0. unfold ev.
    rewrite (proj2 (Nat.ltb_ge i 4)), (proj2 (Nat.ltb_ge i 68)) by lia. unfold se. assert (HX : (71 - i < 4)%nat) by lia. revert HX.
    generalize (71 - i)%nat. intros [|[|[|[|k]]]] HX; cbn [nth]; try lia.
Qed.
(** the other cells *)
Lemma c_final d i r : cell (p:=p) (drow d i) CFinal r = fbool (d_final d i). Proof. reflexivity. Qed.
Lemma c_pad d i k r : cell (p:=p) (drow d i) (CPad k) r = fbool (nth k (d_pads d i) false). Proof. reflexivity. Qed.
Lemma c_len d i r : cell (p:=p) (drow d i) CLen r = of_Z p (d_len d i). Proof. reflexivity. Qed.
Lemma final_start d i : (i < 4)%nat -> d_final d i = (d_idx d =? 0)%nat.
Proof. intros H. unfold d_final. now rewrite (proj2 (Nat.ltb_lt i 4)). Qed.
Lemma prev_block j : (0 < j < length bds)%nat ->
  (d_idx (D j) = 0%nat /\ d_fin (D (j - 1)) = true) \/
  (d_idx (D j) = S (d_idx (D (j - 1))) /\ d_fin (D (j - 1)) = false /\ d_n (D j) = d_n (D (j - 1)) /\ d_hs (D j) = hs_out (D (j - 1))).
Proof.
  intros H. pose proof (Hlink (j - 1) ltac:(lia)) as L. replace (S (j - 1)) with j in L by lia. unfold linked in L.
  destruct (d_fin (D (j - 1))); [left; tauto|right; tauto].
Qed.
Lemma h_start j i : okr j i -> holds (rz j i) g_start.
Proof.
  intros H. unfold g_start. cbv zeta. apply (g_sel _ _ _ (sel QStart j i)); [now apply fs|]. cbn [sel]. rewrite Nat.ltb_lt. intros Hi.
  assert (HIA : eval t (rz j i) (qf HA) = of_Z p (nth (3 - i) H_INIT 0)).
  { rewrite fx by exact H. unfold fixed_value. rewrite rz_round by apply H. rewrite (proj2 (Z.ltb_lt (Z.of_nat i) 4)) by lia. do 2 f_equal. lia. }
  assert (HIE : eval t (rz j i) (qf HE) = of_Z p (nth (7 - i) H_INIT 0)).
  { rewrite fx by exact H. unfold fixed_value. rewrite rz_round by apply H. rewrite (proj2 (Z.ltb_lt (Z.of_nat i) 4)) by lia. do 2 f_equal. lia. }
  assert (VA : av (D j) i = sa (d_hs (D j)) (3 - i)) by (unfold av; rewrite (proj2 (Nat.ltb_lt i 4)) by lia; reflexivity).
  assert (VE : ev (D j) i = se (d_hs (D j)) (3 - i)) by (unfold ev; rewrite (proj2 (Nat.ltb_lt i 4)) by lia; reflexivity).
  assert (G : eval t (rz j i) (select_expr (Advice CFinal 0) (qf HA) (decode_expr ShaCircuit.d_)) = of_Z p (av (D j) i) /\
              eval t (rz j i) (select_expr (Advice CFinal 0) (qf HE) (decode_expr h_)) = of_Z p (ev (D j) i)).
  2: { destruct G as [G1 G2]. apply two; apply eq0; [rewrite x_a, G1 by exact H|rewrite x_e, G2 by exact H]; reflexivity. }
  unfold select_expr. rewrite !ev_sum, !ev_prod, ev_sub, ev_cst1, cur, c_final, final_start, HIA, HIE by (exact H || lia).
  destruct (Nat.eqb_spec (d_idx (D j)) 0) as [E0|E0].
  - assert (EH : d_hs (D j) = sha_H0) by (apply (dv j (proj1 H)); exact E0). rewrite VA, VE, EH.
    assert (X1 : sa sha_H0 (3 - i) = nth (3 - i) H_INIT 0) by (destruct i as [|[|[|[|i]]]]; try reflexivity; lia).
    assert (X2 : se sha_H0 (3 - i) = nth (7 - i) H_INIT 0) by (destruct i as [|[|[|[|i]]]]; try reflexivity; lia).
    rewrite X1, X2. unfold fbool. split; ring.
  - assert (Hj : (0 < j < length bds)%nat) by (destruct j; [contradiction|lia]).
    destruct (prev_block j Hj) as [[? _]|(_ & _ & _ & EH)]; [contradiction|].
    assert (R : rz j i + -4 = rz (j - 1) (68 + i)) by (unfold rz, SHA_ROWS; lia).
    assert (B1 : bits t (rz j i) (ShaCircuit.d_) (tobits 32 (av (D (j - 1)) (68 + i)))) by (apply b_a; [reflexivity|lia|exact R]).
    assert (B3 : bits t (rz j i) h_ (tobits 32 (ev (D (j - 1)) (68 + i)))) by (apply b_e; [reflexivity|lia|exact R]).
    rewrite (ev_decode t _ _ _ B1), (ev_decode t _ _ _ B3), v_a32, v_e32 by lia.
    destruct (out_at (D (j - 1)) (3 - i) (dk (j - 1) ltac:(lia)) ltac:(lia)) as [O1 O2].
    replace (71 - (3 - i))%nat with (68 + i)%nat in O1, O2 by lia. rewrite O1, O2, VA, VE, EH. unfold fbool. split; ring.
Qed.
Lemma pad_in j q k : (q < 16)%nat -> (k < 4)%nat -> nth k (d_pads (D j) (4 + q)) false = (d_n (D j) <=? 64 * d_idx (D j) + 4 * q + k)%nat.
Proof.
  intros Hq Hk. unfold d_pads. rewrite (proj2 (Nat.ltb_ge (4 + q) 4)), (proj2 (Nat.ltb_lt (4 + q) 20)) by lia. unfold pads.
  replace (4 + q - 4)%nat with q by lia. destruct k as [|[|[|[|k]]]]; try reflexivity. lia.
Qed.
Lemma fin_eq j : (j < length bds)%nat -> d_fin (D j) = (d_n (D j) <=? 64 * d_idx (D j) + 4 * 13 + 3)%nat.
Proof.
  intros H. destruct (dv j H) as (_ & _ & -> & _). apply Bool.eq_iff_eq_true. rewrite !Nat.leb_le. lia.
Qed.
Lemma sel_start j i : okr j i -> eval t (rz j i) (sub_expr (qf QStart) (qf QFirst)) = fbool ((i <? 4)%nat && negb (sel QFirst j i)).
Proof.
  intros H. rewrite ev_sub, !fs by (exact H || reflexivity). cbn [sel]. apply fb_sub. rewrite andb_true_iff, !Nat.eqb_eq. intros [_ ->]. reflexivity.
Qed.
Lemma start_cases j i : (i <? 4)%nat && negb (sel QFirst j i) = true -> (i < 4)%nat /\ (0 < j \/ 0 < i)%nat.
Proof.
  cbn [sel]. rewrite andb_true_iff, Nat.ltb_lt, negb_true_iff, andb_false_iff, !Nat.eqb_neq. lia.
Qed.
Lemma h_is_final j i : okr j i -> holds (rz j i) g_is_final.
Proof.
  intros H. unfold g_is_final. cbv zeta. apply g_on. apply Forall_app. split; [|apply Forall_app; split].
  - apply (g_sel _ _ _ (sel QFirst j i)); [now apply fs|]. cbn [sel]. rewrite andb_true_iff, !Nat.eqb_eq. intros [-> ->].
    apply one, eq0. rewrite cur, c_final, final_start by (exact H || lia). rewrite Hfirst. reflexivity.
  - apply (g_sel _ _ _ (sel QSqueeze j i)); [now apply fs|]. cbn [sel]. rewrite Nat.eqb_eq. intros ->.
    apply one, eq0. rewrite cur by exact H. rewrite (at_ _ _ _ _ j 17) by (unfold rz; lia). rewrite c_final, c_pad.
    change (d_pads (D j) 17) with (d_pads (D j) (4 + 13)). rewrite (pad_in j 13 3) by lia. f_equal. rewrite <- fin_eq by lia. reflexivity.
  - apply (g_sel _ _ _ ((i <? 4)%nat && negb (sel QFirst j i))); [now apply sel_start|]. intros HS. apply start_cases in HS. destruct HS as [Hi Hpos].
    apply one, eq0. rewrite cur by exact H. destruct i as [|i].
    + rewrite (at_ _ _ _ _ (j - 1) 71) by (unfold rz, SHA_ROWS; lia). rewrite !c_final, final_start by lia. f_equal.
      change (d_final (D (j - 1)) 71) with (d_fin (D (j - 1))).
      destruct (prev_block j ltac:(lia)) as [[-> ->]|(-> & -> & _)]; reflexivity.
    + rewrite (at_ _ _ _ _ j i) by (unfold rz; lia). rewrite !c_final, !final_start by lia. reflexivity.
Qed.

Lemma ev_byte j q k : (j < length bds)%nat -> (q < 16)%nat -> (k < 4)%nat ->
  eval t (rz j (4 + q)) (nth k input_bytes (cst 0)) = of_Z p (nth (4 * q + k) (d_bytes (D j)) 0).
Proof.
  intros Hj Hq Hk. assert (H : okr j (4 + q)) by lia. pose proof (dk j Hj) as K.
  destruct (dw j (4 + q) 0 H) as [BW VW]; [lia..|]. rewrite !Nat.sub_0_r in BW, VW. replace (4 + q - 4)%nat with q in VW by lia.
  change (bits_at CW 2 32 (- Z.of_nat 0)) with (w_ (p:=p)) in BW. pose proof (ev_be_bytes t _ _ _ BW) as B.
  rewrite bytes_be in B by apply tb32. rewrite VW in B. rewrite W_in in B by assumption.
  destruct K as (_ & HL & HB).
  rewrite be_bytes_unique in B by (try (rewrite firstn_length, skipn_length; lia); apply Forall_firstn', Forall_skipn', HB).
  apply (f_equal (fun l => nth k l (of_Z p 0))) in B. rewrite (map_nth (of_Z p)) in B.
  change (of_Z p 0) with (eval t (rz j (4 + q)) (cst 0)) in B. rewrite map_nth in B. fold (input_bytes (p:=p)) in B. rewrite B. f_equal.
  clear - Hk HL Hq. generalize (d_bytes (D j)) HL. intros l Hl. rewrite <- (firstn_skipn (4 * q) l) at 2.
  rewrite app_nth2 by (rewrite firstn_length; lia). rewrite firstn_length, Nat.min_l by lia. replace (4 * q + k - 4 * q)%nat with k by lia.
  generalize (skipn (4 * q) l). intros m. destruct k as [|[|[|[|k]]]]; destruct m as [|? [|? [|? [|? ?]]]]; try reflexivity; lia.
Qed.
Lemma pad_prev j q : (j < length bds)%nat -> (q < 16)%nat ->
  eval t (rz j (4 + q)) (Advice (CPad 3) (-1)) = fbool (d_n (D j) <? 64 * d_idx (D j) + 4 * q)%nat.
Proof.
  intros Hj Hq. rewrite (at_ _ _ _ _ j (3 + q)) by (unfold rz; lia). rewrite c_pad. f_equal. destruct q as [|q].
  - reflexivity.
  - replace (3 + S q)%nat with (4 + q)%nat by lia. rewrite pad_in by lia. apply Bool.eq_iff_eq_true. rewrite Nat.leb_le, Nat.ltb_lt. lia.
Qed.
Lemma ev_and2 r a b : eval t r (and_expr [a; b]) = (eval t r a * eval t r b)%F.
Proof. unfold and_expr. cbn [fold_left]. rewrite !ev_prod, ev_cst1. ring. Qed.
Lemma ev_and3 r a b c : eval t r (and_expr [a; b; c]) = (eval t r a * eval t r b * eval t r c)%F.
Proof. unfold and_expr. cbn [fold_left]. rewrite !ev_prod, ev_cst1. ring. Qed.
Lemma fin_row j : (j < length bds)%nat -> eval t (rz j 19) (Advice (CPad 3) (-2)) = fbool (d_fin (D j)).
Proof.
  intros Hj. rewrite (at_ _ _ _ _ j 17) by (unfold rz; lia). rewrite c_pad. change (d_pads (D j) 17) with (d_pads (D j) (4 + 13)).
  rewrite (pad_in j 13 3) by lia. now rewrite <- fin_eq by lia.
Qed.
Definition pstep (idx : nat) : list (expr p) :=
  let is_padding_prev := match idx with O => Advice (CPad 3) (-1) | S i => Advice (CPad i) 0 end in
  let is_padding := Advice (CPad idx) 0 in
  let is_first_padding := sub_expr is_padding is_padding_prev in
  let byte := nth idx input_bytes (cst 0) in
  condition (qf QInput) [require_boolean is_first_padding] ++
  condition (and_expr [sub_expr (qf QInput) (qf QInputLast); is_padding]) [require_equal byte (Product is_first_padding (cst 128))] ++
  condition (and_expr [qf QInputLast; is_padding; not_expr (Advice (CPad 3) (-2))]) [require_equal byte (Product is_first_padding (cst 128))].
Lemma g_padding_eq : g_padding (p:=p) = gate (cst 1)
  (flat_map (fun x => condition (qf QEnable) [require_boolean x]) (map (fun k => Advice (CPad k) 0) (seq 0 4)) ++
   flat_map pstep (seq 0 4) ++
   condition (and_expr [qf QInputLast; Advice (CPad 3) (-2)]) [require_equal (decode_expr w_) (Product (Advice CLen 0) (cst 8))]).
Proof. reflexivity. Qed.
Lemma h_pstep_off j i k : okr j i -> (i < 4 \/ 20 <= i)%nat -> holds (rz j i) (pstep k).
Proof.
  intros H Hi. unfold pstep. cbv zeta.
  assert (E1 : eval t (rz j i) (qf QInput) = F0).
  { rewrite fs by (exact H || reflexivity). cbn [sel]. replace ((4 <=? i) && (i <? 20))%nat with false; [reflexivity|].
    symmetry. apply andb_false_iff. rewrite Nat.leb_gt, Nat.ltb_ge. lia. }
  assert (E2 : eval t (rz j i) (qf QInputLast) = F0).
  { rewrite fs by (exact H || reflexivity). cbn [sel]. rewrite (proj2 (Nat.eqb_neq i 19)) by lia. reflexivity. }
  apply Forall_app; split; [|apply Forall_app; split]; apply g_off.
  - exact E1.
  - rewrite ev_and2, ev_sub, E1, E2. ring.
  - rewrite ev_and3, E2. ring.
Qed.
Lemma h_pstep j q k : (j < length bds)%nat -> (q < 16)%nat -> (k < 4)%nat -> holds (rz j (4 + q)) (pstep k).
Proof.
  intros Hj Hq Hk. assert (H : okr j (4 + q)) by lia. unfold pstep. cbv zeta.
  set (N := d_n (D j)). set (x := (64 * d_idx (D j) + 4 * q + k)%nat).
  assert (EP : eval t (rz j (4 + q)) (Advice (CPad k) 0) = fbool (N <=? x)%nat) by (rewrite cur, c_pad, pad_in by (exact H || lia); reflexivity).
  assert (EF : eval t (rz j (4 + q)) (sub_expr (Advice (CPad k) 0) match k with O => Advice (CPad 3) (-1) | S i => Advice (CPad i) 0 end) = fbool (N =? x)%nat).
  { rewrite ev_sub, EP.
    assert (EV : eval t (rz j (4 + q)) match k with O => Advice (CPad 3) (-1) | S i => Advice (CPad i) 0 end = fbool (N <? x)%nat).
    { destruct k as [|k].
      - rewrite pad_prev by assumption. unfold x. now rewrite Nat.add_0_r.
      - rewrite cur, c_pad, pad_in by (exact H || lia). f_equal. apply Bool.eq_iff_eq_true. rewrite Nat.leb_le, Nat.ltb_lt. unfold x, N. lia. }
    rewrite EV, fb_sub by (rewrite Nat.leb_le, Nat.ltb_lt; lia). f_equal. apply Bool.eq_iff_eq_true.
    rewrite andb_true_iff, negb_true_iff, Nat.leb_le, Nat.ltb_ge, Nat.eqb_eq. lia. }
  assert (E1 : eval t (rz j (4 + q)) (qf QInput) = F1).
  { rewrite fs by (exact H || reflexivity). cbn [sel]. rewrite (proj2 (Nat.leb_le 4 (4 + q))), (proj2 (Nat.ltb_lt (4 + q) 20)) by lia. reflexivity. }
  assert (E2 : eval t (rz j (4 + q)) (qf QInputLast) = fbool (q =? 15)%nat).
  { rewrite fs by (exact H || reflexivity). reflexivity. }
  assert (EB : (N <= x)%nat -> (4 * q + k < 60)%nat \/ d_fin (D j) = false ->
    eval t (rz j (4 + q)) (require_equal (nth k input_bytes (cst 0))
      (Product (sub_expr (Advice (CPad k) 0) match k with O => Advice (CPad 3) (-1) | S i => Advice (CPad i) 0 end) (cst 128))) = F0).
  { intros HN HC. apply eq0. rewrite ev_byte by assumption. rewrite ev_prod, EF. destruct (dv j Hj) as (_ & _ & _ & _ & HBy & _).
    rewrite (HBy (4 * q + k)%nat) by (try exact HC; unfold x, N in HN; lia). fold N. replace (64 * d_idx (D j) + (4 * q + k))%nat with x by (unfold x; lia).
    cbn [eval cst]. destruct (N =? x)%nat; unfold fbool; fold (@F0 p); ring. }
  apply Forall_app; split; [|apply Forall_app; split].
  - apply g_on, one. exact (bool0 _ _ _ EF).
  - apply (g_sel _ _ _ (negb (q =? 15)%nat && (N <=? x)%nat)).
    + rewrite ev_and2, ev_sub, E1, E2, EP, fb_not, fb_and. reflexivity.
    + rewrite andb_true_iff, negb_true_iff, Nat.eqb_neq, Nat.leb_le. intros [Hq15 HN]. apply one, EB; [exact HN|]. left. lia.
  - destruct (Nat.eqb_spec q 15) as [->|Hne].
    + apply (g_sel _ _ _ ((N <=? x)%nat && negb (d_fin (D j)))).
      * rewrite ev_and3, E2, EP. change (4 + 15)%nat with 19%nat. unfold not_expr. rewrite ev_sub, ev_cst1, fin_row, fb_not by exact Hj.
        rewrite <- fb_and. unfold fbool at 1. ring.
      * rewrite andb_true_iff, negb_true_iff, Nat.leb_le. intros [HN HF]. apply one, EB; [exact HN|now right].
    + apply g_off. rewrite ev_and3, E2. unfold fbool. ring.
Qed.
Lemma h_padding j i : okr j i -> holds (rz j i) g_padding.
Proof.
  intros H. rewrite g_padding_eq. apply g_on. apply Forall_app; split; [|apply Forall_app; split].
  - apply Forall_flat_map, Forall_forall. intros e He. apply in_map_iff in He. destruct He as (k & <- & _).
    apply g_on, one. eapply bool0. rewrite cur by exact H. apply c_pad.
  - apply Forall_flat_map, Forall_forall. intros k Hk. apply in_seq in Hk.
    destruct (Nat.lt_ge_cases i 4); [apply h_pstep_off; [exact H|lia]|]. destruct (Nat.lt_ge_cases i 20); [|apply h_pstep_off; [exact H|lia]].
    replace i with (4 + (i - 4))%nat by lia. apply h_pstep; lia.
  - destruct (Nat.eq_dec i 19) as [->|Hne].
    2: { apply g_off. rewrite ev_and2, fs by (exact H || reflexivity). cbn [sel]. rewrite (proj2 (Nat.eqb_neq i 19)) by exact Hne. unfold fbool. ring. }
    apply (g_sel _ _ _ (d_fin (D j))).
    + rewrite ev_and2, fin_row, fs by (exact H || lia || reflexivity). change (sel QInputLast j 19) with true. unfold fbool at 1. ring.
    + intros HFin. apply one, eq0. destruct (dw j 19 0 H) as [BW VW]; [lia..|]. change (19 - 0)%nat with 19%nat in *. change (19 - 4)%nat with 15%nat in *.
      change (bits_at CW 2 32 (- Z.of_nat 0)) with (w_ (p:=p)) in BW. rewrite (ev_decode t _ _ _ BW), VW.
      pose proof (dv j (proj1 H)) as (K & _ & HFd & _ & _ & HLb). rewrite W_in by (exact K || lia). specialize (HLb HFin).
      change (4 * 15)%nat with 60%nat. rewrite firstn_all2 by (rewrite skipn_length; destruct K as (_ & -> & _); lia). rewrite HLb.
      rewrite ev_prod, cur, c_len by exact H. change (eval t _ (cst 8)) with (of_Z p 8). rewrite <- of_Z_mul. f_equal.
      change (d_len (D j) 19) with (lenq (D j) 16). unfold lenq. rewrite HFin in HFd. symmetry in HFd. apply Nat.leb_le in HFd. lia.
Qed.
Lemma h_word_value j i : okr j i -> holds (rz j i) g_word_value.
Proof.
  intros H. unfold g_word_value. cbv zeta. apply (g_sel _ _ _ (sel QInput j i)); [now apply fs|]. cbn [sel]. rewrite andb_true_iff, Nat.leb_le, Nat.ltb_lt.
  intros Hi. replace i with (4 + (i - 4))%nat in * by lia. set (q := (i - 4)%nat) in *. assert (Hq : (q < 16)%nat) by lia. clearbody q. clear Hi i.
  apply one, eq0. assert (N : input_bytes (p:=p) = map (fun k => nth k input_bytes (cst 0)) (seq 0 4)) by reflexivity.
  pose proof (dk j (proj1 H)) as K.
  set (wd := map (fun bp : Z * bool => if snd bp then 0 else fst bp) (combine (be_bytes 4 (low32 (wv (D j) (4 + q)))) (d_pads (D j) (4 + q)))).
  rewrite cur by exact H. unfold cell. rewrite rz_round by lia. rewrite (within_true (p:=p)) by lia. unfold drow, add_row. cbn [v_word].
  assert (HI : d_input (4 + q) = true) by (unfold d_input; rewrite (proj2 (Nat.leb_le 4 (4 + q))), (proj2 (Nat.ltb_lt (4 + q) 20)) by lia; reflexivity).
  rewrite HI. apply ev_from_bytes. fold wd.
  assert (EB : be_bytes 4 (low32 (wv (D j) (4 + q))) = firstn 4 (skipn (4 * q) (d_bytes (D j)))).
  { rewrite low32_mod, wv_at by (exact K || lia). replace (4 + q - 4)%nat with q by lia. rewrite W_in by assumption. destruct K as (_ & HL & HB).
    apply be_bytes_unique; [rewrite firstn_length, skipn_length; lia|apply Forall_firstn', Forall_skipn', HB]. }
  assert (EW : wd = map (fun k => if nth k (d_pads (D j) (4 + q)) false then 0 else nth (4 * q + k) (d_bytes (D j)) 0) (seq 0 4)).
  { unfold wd. rewrite EB. destruct K as (_ & HL & _).
    assert (EF : firstn 4 (skipn (4 * q) (d_bytes (D j))) = map (fun k => nth (4 * q + k) (d_bytes (D j)) 0) (seq 0 4)).
    { clear - HL Hq. generalize (d_bytes (D j)) HL. intros l Hl. apply nth_ext with (d := 0) (d' := 0).
      - rewrite firstn_length, skipn_length, map_length, seq_length. lia.
      - intros k Hk. rewrite firstn_length, skipn_length in Hk.
        assert (E : nth k (map (fun k => nth (4 * q + k) l 0) (seq 0 4)) 0 = nth (4 * q + k) l 0) by (destruct k as [|[|[|[|k]]]]; try reflexivity; lia).
        rewrite E. rewrite <- (firstn_skipn (4 * q) l) at 2.
        rewrite app_nth2 by (rewrite firstn_length; lia). rewrite firstn_length, Nat.min_l by lia. replace (4 * q + k - 4 * q)%nat with k by lia.
        generalize (skipn (4 * q) l). intros m. destruct k as [|[|[|[|k]]]]; destruct m as [|? [|? [|? [|? ?]]]]; try reflexivity; lia. }
    rewrite EF. unfold d_pads. rewrite (proj2 (Nat.ltb_ge (4 + q) 4)), (proj2 (Nat.ltb_lt (4 + q) 20)) by lia. reflexivity. }
  rewrite EW. rewrite N. unfold map2. cbn [seq map combine fst snd].
  assert (M : forall k, (k < 4)%nat -> eval t (rz j (4 + q)) (Product (nth k input_bytes (cst 0)) (not_expr (Advice (CPad k) 0)))
             = of_Z p (if nth k (d_pads (D j) (4 + q)) false then 0 else nth (4 * q + k) (d_bytes (D j)) 0)).
  { intros k Hk. rewrite ev_prod, ev_byte by (assumption || lia). unfold not_expr. rewrite ev_sub, cur, c_pad, ev_cst1 by exact H.
    destruct (nth k (d_pads (D j) (4 + q)) false); unfold fbool; [fold (@F0 p)|]; ring. }
  rewrite (M 0%nat), (M 1%nat), (M 2%nat), (M 3%nat) by lia. reflexivity.
Qed.
Lemma len_prev j q : (j < length bds)%nat -> (q <= 16)%nat -> d_len (D j) (3 + q) = lenq (D j) q.
Proof.
  intros Hj Hq. unfold d_len. destruct q as [|q]; [reflexivity|]. rewrite (proj2 (Nat.ltb_ge (3 + S q) 4)), (proj2 (Nat.ltb_lt (3 + S q) 20)) by lia. f_equal. 
Qed.
Lemma h_length j i : okr j i -> holds (rz j i) g_length.
Proof.
  intros H. unfold g_length. apply (g_sel _ _ _ (sel QInput j i)); [now apply fs|]. cbn [sel]. rewrite andb_true_iff, Nat.leb_le, Nat.ltb_lt.
  intros Hi. replace i with (4 + (i - 4))%nat in * by lia. set (q := (i - 4)%nat) in *. assert (Hq : (q < 16)%nat) by lia. clearbody q. clear Hi i.
  apply one, eq0. rewrite ev_sum, cur by exact H. rewrite (at_ _ _ _ _ j (3 + q)) by (unfold rz; lia). rewrite !c_len.
  replace (4 + q)%nat with (3 + S q)%nat by lia. rewrite !len_prev by lia. replace (3 + S q)%nat with (4 + q)%nat by lia.
  assert (M : forall k, (k < 4)%nat -> eval t (rz j (4 + q)) (not_expr (Advice (CPad k) 0)) = of_Z p (if (d_n (D j) <=? 64 * d_idx (D j) + 4 * q + k)%nat then 0 else 1)).
  { intros k Hk. unfold not_expr. rewrite ev_sub, cur, c_pad, ev_cst1, pad_in by (exact H || lia).
    destruct (d_n (D j) <=? 64 * d_idx (D j) + 4 * q + k)%nat; unfold fbool; fold (@F0 p); ring. }
  unfold sum_expr. cbn [seq map fold_left]. rewrite !ev_sum, !M by lia. change (eval t _ (cst 0)) with (of_Z p 0). rewrite <- !of_Z_add. f_equal.
  unfold lenq. repeat match goal with |- context[(?a <=? ?b)%nat] => destruct (Nat.leb_spec a b) end; lia.
Qed.
Lemma h_squeeze j i : okr j i -> holds (rz j i) g_squeeze.
Proof.
  intros H. unfold g_squeeze. cbv zeta. apply (g_sel _ _ _ (sel QSqueeze j i)); [now apply fs|]. cbn [sel]. rewrite Nat.eqb_eq. intros ->.
  apply (g_sel _ _ _ (d_fin (D j))); [rewrite cur by exact H; reflexivity|]. intros HFin. pose proof (dk j (proj1 H)) as K.
  assert (BA : forall k, (k < 4)%nat -> map (eval t (rz j 71)) (to_be_bytes_expr (bits_at CA 3 32 (- Z.of_nat k))) = map (of_Z p) (be_bytes 4 (sa (hs_out (D j)) k))).
  { intros k Hk. rewrite <- (proj1 (out_at (D j) k K Hk)). rewrite <- v_a32 by lia. rewrite <- bytes_be by apply tb32. apply ev_be_bytes.
    apply b_a; [reflexivity|lia|apply rz_sub; lia]. }
  assert (BE : forall k, (k < 4)%nat -> map (eval t (rz j 71)) (to_be_bytes_expr (bits_at CE 3 32 (- Z.of_nat k))) = map (of_Z p) (be_bytes 4 (se (hs_out (D j)) k))).
  { intros k Hk. rewrite <- (proj2 (out_at (D j) k K Hk)). rewrite <- v_e32 by lia. rewrite <- bytes_be by apply tb32. apply ev_be_bytes.
    apply b_e; [reflexivity|lia|apply rz_sub; lia]. }
  assert (B : map (eval t (rz j 71)) (rev (flat_map to_be_bytes_expr [new_a; a_; b_; c_; new_e; e_; f_; g_])) = map (of_Z p) (rev (hs_bytes (hs_out (D j))))).
  { rewrite !map_rev. f_equal. unfold hs_bytes. cbn [flat_map]. rewrite !map_app. cbn [map].
    pose proof (BA 0%nat ltac:(lia)) as A0. pose proof (BA 1%nat ltac:(lia)) as A1. pose proof (BA 2%nat ltac:(lia)) as A2. pose proof (BA 3%nat ltac:(lia)) as A3.
    pose proof (BE 0%nat ltac:(lia)) as E0. pose proof (BE 1%nat ltac:(lia)) as E1. pose proof (BE 2%nat ltac:(lia)) as E2. pose proof (BE 3%nat ltac:(lia)) as E3.
    unfold new_a, a_, b_, c_, new_e, e_, f_, g_. cbn [Z.of_nat Z.opp Pos.of_succ_nat Pos.succ] in *.
    rewrite A0, A1, A2, A3, E0, E1, E2, E3. reflexivity. }
  assert (LE : forall l, le_val l = be_val (rev l)) by (intros l; rewrite <- (rev_involutive l) at 1; rewrite <- be_val_rev, rev_involutive; reflexivity).
  assert (HLen : length (hs_bytes (hs_out (D j))) = 32%nat) by (unfold hs_bytes; cbn [flat_map]; rewrite !app_length, !be_bytes_len; reflexivity).
  assert (EI : forall i', i' = 71%nat \/ i' = 70%nat -> cell (p:=p) (drow (D j) i') CIo (rz j i') = of_Z p (d_limb (D j) i')).
  { intros i' Hi'. unfold cell. rewrite rz_round by lia. unfold within. destruct Hi' as [-> | ->]; reflexivity. }
  apply two; apply eq0.
  - rewrite (ev_from_bytes t _ _ (firstn 16 (rev (hs_bytes (hs_out (D j)))))) by (rewrite <- !firstn_map, B; reflexivity).
    rewrite cur, EI by (exact H || lia). f_equal. rewrite LE, firstn_rev, rev_involutive, HLen. change (32 - 16)%nat with 16%nat. unfold d_limb, d_hash. rewrite HFin. cbn [Nat.eqb]. reflexivity.
  - rewrite (ev_from_bytes t _ _ (skipn 16 (rev (hs_bytes (hs_out (D j)))))) by (rewrite <- !skipn_map, B; reflexivity).
    rewrite (at_ _ _ _ _ j 70) by (unfold rz; lia). rewrite EI by lia. f_equal. rewrite LE, skipn_rev, rev_involutive, HLen. change (32 - 16)%nat with 16%nat.
    unfold d_limb, d_hash. rewrite HFin. cbn [Nat.eqb]. reflexivity.
Qed.

(** a column carried across blocks *)
Lemma h_carried c (v : nat -> nat -> Fp) j i : okr j i ->
  (forall j i, cell (drow (D j) i) c (rz j i) = v j i) -> v j 71%nat = v j 19%nat ->
  (forall i, (i < 4)%nat -> v j i = v j 3%nat) -> (d_idx (D j) = 0%nat -> v j 3%nat = F0) ->
  ((0 < j)%nat -> d_idx (D j) <> 0%nat -> v j 3%nat = v (j - 1)%nat 71%nat) ->
  holds (rz j i) (condition (qf QSqueeze) [require_equal (Advice c 0) (Advice c (-52))] ++
    condition (sub_expr (qf QStart) (qf QFirst)) [require_equal (Advice c 0) (Product (Advice c (-1)) (not_expr (Advice CFinal 0)))] ++
    condition (qf QFirst) [require_equal (Advice c 0) (cst 0)]).
Proof.
  intros H HV HQ HSt H0 HC. apply Forall_app. split; [|apply Forall_app; split].
  - apply (g_sel _ _ _ (sel QSqueeze j i)); [now apply fs|]. cbn [sel]. rewrite Nat.eqb_eq. intros ->.
    apply one, eq0. rewrite cur by exact H. rewrite (at_ _ _ _ _ j 19) by (unfold rz; lia). rewrite !HV. exact HQ.
  - apply (g_sel _ _ _ ((i <? 4)%nat && negb (sel QFirst j i))); [now apply sel_start|]. intros HS. apply start_cases in HS. destruct HS as [Hi Hpos].
    apply one, eq0. rewrite ev_prod. unfold not_expr. rewrite ev_sub, ev_cst1, !cur, c_final, final_start by (exact H || lia). rewrite HV, (HSt i Hi).
    destruct (Nat.eqb_spec (d_idx (D j)) 0) as [E0|E0].
    + rewrite (H0 E0). unfold fbool. ring.
    + assert (E : eval t (rz j i) (Advice c (-1)) = v j 3%nat).
      { destruct i as [|i].
        - rewrite (at_ _ _ _ _ (j - 1) 71) by (unfold rz, SHA_ROWS; lia). rewrite HV. symmetry. apply HC; [lia|exact E0].
        - rewrite (at_ _ _ _ _ j i) by (unfold rz; lia). rewrite HV. apply HSt. lia. }
      rewrite E. unfold fbool. ring.
  - apply (g_sel _ _ _ (sel QFirst j i)); [now apply fs|]. cbn [sel]. rewrite andb_true_iff, !Nat.eqb_eq. intros [-> ->].
    apply one, eq0. rewrite cur, HV by exact H. rewrite (HSt 0%nat) by lia. apply H0. exact Hfirst.
Qed.
Lemma h_cross j i : okr j i -> holds (rz j i) g_cross.
Proof.
  intros H. unfold g_cross. cbv zeta. apply g_on. apply Forall_app. split.
  - apply (h_carried CLen (fun j i => of_Z p (d_len (D j) i))); [exact H|reflexivity|reflexivity| | |].
    + intros i' Hi'. unfold d_len at 1. rewrite (proj2 (Nat.ltb_lt i' 4)) by lia. reflexivity.
    + intros E0. change (d_len (D j) 3) with (lenq (D j) 0). unfold lenq. rewrite E0. rewrite Nat.min_r by lia. reflexivity.
    + intros Hj E0. change (d_len (D j) 3) with (lenq (D j) 0). change (d_len (D (j - 1)) 71) with (lenq (D (j - 1)) 16).
      destruct (prev_block j ltac:(lia)) as [[? _]|(E1 & _ & E2 & _)]; [contradiction|]. unfold lenq. rewrite E1, E2. do 3 f_equal. lia.
  - apply (h_carried (CPad 3) (fun j i => fbool (nth 3 (d_pads (D j) i) false))); [exact H|reflexivity| | | |].
    + change (d_pads (D j) 19) with (d_pads (D j) (4 + 15)). rewrite pad_in by lia. change (nth 3 (d_pads (D j) 71) false) with (prevp (D j) 16).
      unfold prevp. f_equal. apply Bool.eq_iff_eq_true. rewrite Nat.leb_le, Nat.ltb_lt. lia.
    + intros i' Hi'. unfold d_pads at 1. rewrite (proj2 (Nat.ltb_lt i' 4)) by lia. reflexivity.
    + intros E0. change (nth 3 (d_pads (D j) 3) false) with (prevp (D j) 0). unfold prevp. rewrite E0. reflexivity.
    + intros Hj E0. change (nth 3 (d_pads (D j) 3) false) with (prevp (D j) 0). change (nth 3 (d_pads (D (j - 1)) 71) false) with (prevp (D (j - 1)) 16).
      destruct (prev_block j ltac:(lia)) as [[? _]|(E1 & _ & E2 & _)]; [contradiction|]. unfold prevp. rewrite E1, E2. f_equal.
      apply Bool.eq_iff_eq_true. rewrite !Nat.ltb_lt. lia.
Qed.
Lemma high_bits v m k : 0 <= v < 2 ^ m -> m <= Z.of_nat k -> Z.testbit v (Z.of_nat k) = false.
Proof.
  intros Hv Hm. destruct (Z.eq_dec v 0) as [->|Hne]; [apply Z.testbit_0_l|]. apply Z.bits_above_log2; [lia|].
  apply Z.lt_le_trans with m; [|exact Hm]. apply Z.log2_lt_pow2; lia.
Qed.
Lemma squeeze_next j i : okr j i -> (i < 71)%nat -> eval t (rz j i) (Fixed QSqueeze 1) = fbool (i =? 70)%nat.
Proof.
  intros H Hi. rewrite (fix_at t nb t_rows t_fixed) by (unfold rz, SHA_ROWS; lia). unfold fixed_value.
  replace (rz j i + 1) with (rz j (i + 1)) by (unfold rz; lia). rewrite rz_round by lia. rewrite of_b2z. f_equal.
  apply Bool.eq_iff_eq_true. rewrite Z.eqb_eq, Nat.eqb_eq. lia.
Qed.
Lemma squeeze_next_last j : (j < length bds)%nat -> eval t (rz j 71) (Fixed QSqueeze 1) = F0.
Proof.
  intros H. cbn [eval]. assert (B : 0 <= (rz j 71 + 1) mod rows t < rows t) by (apply Z.mod_pos_bound; unfold assigned_table; cbn [rows]; unfold SHA_ROWS in Hn; lia).
  rewrite t_fixed by exact B. destruct (Z.lt_ge_cases (rz j 71 + 1) (rows t)) as [L|L].
  - rewrite Z.mod_small by (unfold rz, SHA_ROWS in *; lia). replace (rz j 71 + 1) with (rz (S j) 0) by (unfold rz, SHA_ROWS; lia).
    destruct (rz (S j) 0 <? SHA_ROWS * nb); [|reflexivity]. unfold fixed_value. rewrite rz_round by lia. reflexivity.
  - assert (E : rz j 71 + 1 = rows t) by (unfold assigned_table in *; cbn [rows] in *; unfold rz, SHA_ROWS in *; lia).
    rewrite E, Z.mod_same by (rewrite <- E; unfold rz, SHA_ROWS; lia). destruct (0 <? SHA_ROWS * nb); reflexivity.
Qed.
Lemma end_sel c j i : okr j i -> is_sel c = true -> (sel c j i = true -> i < 68)%nat ->
  eval t (rz j i) (sub_expr (Sum (qf c) (qf QEnd)) (qf QSqueeze)) = fbool ((sel c j i || (68 <=? i)%nat) && negb (i =? 71)%nat).
Proof.
  intros H Hc Hd. rewrite ev_sub, ev_sum, !fs by (exact H || exact Hc || reflexivity).
  change (sel QEnd j i) with (68 <=? i)%nat. change (sel QSqueeze j i) with (i =? 71)%nat. rewrite fb_or.
  - apply fb_sub. rewrite orb_true_iff, Nat.eqb_eq, Nat.leb_le. lia.
  - apply andb_false_iff. rewrite Nat.leb_gt. destruct (sel c j i); [right; now apply Hd|now left].
Qed.
Lemma end_cases c j i : (sel c j i || (68 <=? i)%nat) && negb (i =? 71)%nat = true -> (sel c j i = true \/ 68 <= i)%nat /\ i <> 71%nat.
Proof. rewrite andb_true_iff, orb_true_iff, negb_true_iff, Nat.leb_le, Nat.eqb_neq. tauto. Qed.
Lemma h_unused j i : okr j i -> holds (rz j i) g_unused.
Proof.
  intros H. pose proof (dk j (proj1 H)) as K. unfold g_unused. cbv zeta. apply g_on. repeat (apply Forall_app; split).
  - apply (g_sel _ _ _ (negb (sel QExtend j i))); [unfold not_expr; rewrite ev_sub, ev_cst1, fs by (exact H || reflexivity); apply fb_not|].
    cbn [sel]. rewrite negb_true_iff, andb_false_iff, Nat.leb_gt, Nat.ltb_ge. intros Hi.
    assert (B : 0 <= wv (D j) i < 2 ^ 32).
    { unfold wv. destruct (Nat.ltb_spec i 4); [lia|]. destruct (Nat.ltb_spec i 68); [|lia]. unfold wext.
      rewrite (proj2 (Nat.ltb_lt (i - 4) 16)) by lia. apply W_bound. exact K. }
    unfold w_ext, bits_at. cbn [seq map firstn]. apply two; rewrite cur by exact H; rewrite c_w by (exact K || lia);
      rewrite (high_bits _ 32) by (exact B || lia); reflexivity.
  - apply (g_sel _ _ _ ((i <? 4) || (68 <=? i))%nat).
    { rewrite ev_sum, !fs by (exact H || reflexivity). apply fb_or. cbn [sel]. apply andb_false_iff. rewrite Nat.ltb_ge, Nat.leb_gt. lia. }
    rewrite orb_true_iff, Nat.ltb_lt, Nat.leb_le. intros Hi.
    assert (B : wv (D j) i = 0).
    { unfold wv. destruct (Nat.ltb_spec i 4); [lia|]. destruct (Nat.ltb_spec i 68); [lia|reflexivity]. }
    apply Forall_forall. intros e He. assert (He' : In e (w_ext (p:=p))) by (rewrite <- (firstn_skipn 2 w_ext); apply in_or_app; now right).
    unfold w_ext, bits_at in He'. apply in_map_iff in He'. destruct He' as (k & <- & Hk). apply in_seq in Hk.
    rewrite cur by exact H. rewrite c_w by (exact K || lia). rewrite B, Z.testbit_0_l. reflexivity.
  - apply (g_sel _ _ _ ((sel QCompression j i || (68 <=? i)%nat) && negb (i =? 71)%nat)).
    { apply end_sel; [exact H|reflexivity|]. cbn [sel]. rewrite andb_true_iff, Nat.ltb_lt. lia. }
    intros HE. apply end_cases in HE. cbn [sel] in HE. rewrite andb_true_iff, Nat.leb_le, Nat.ltb_lt in HE.
    apply one. rewrite cur, c_final by exact H. unfold d_final. rewrite (proj2 (Nat.ltb_ge i 4)), (proj2 (Nat.eqb_neq i 71)) by lia. reflexivity.
  - apply (g_sel _ _ _ (negb (sel QInput j i))); [unfold not_expr; rewrite ev_sub, ev_cst1, fs by (exact H || reflexivity); apply fb_not|].
    cbn [sel]. rewrite negb_true_iff, andb_false_iff, Nat.leb_gt, Nat.ltb_ge. intros Hi.
    apply Forall_forall. intros e He. apply in_map_iff in He. destruct He as (k & <- & Hk). apply in_seq in Hk.
    rewrite cur, c_pad by exact H. unfold d_pads.
    destruct (Nat.ltb_spec i 4); [|rewrite (proj2 (Nat.ltb_ge i 20)) by lia]; destruct k as [|[|[|k]]]; try reflexivity; lia.
  - apply (g_sel _ _ _ ((sel QExtend j i || (68 <=? i)%nat) && negb (i =? 71)%nat)).
    { apply end_sel; [exact H|reflexivity|]. cbn [sel]. rewrite andb_true_iff, Nat.ltb_lt. lia. }
    intros HE. apply end_cases in HE. cbn [sel] in HE. rewrite andb_true_iff, Nat.leb_le, Nat.ltb_lt in HE.
    apply one. rewrite cur, c_pad by exact H. unfold d_pads. rewrite (proj2 (Nat.ltb_ge i 4)), (proj2 (Nat.ltb_ge i 20)), (proj2 (Nat.eqb_neq i 71)) by lia. reflexivity.
  - destruct (Nat.eq_dec i 71) as [->|Hne].
    { apply g_off. unfold not_expr. rewrite ev_sub, ev_cst1, !ev_sum, squeeze_next_last, !fs by (exact H || lia || reflexivity).
      change (sel QInput j 71) with false. change (sel QSqueeze j 71) with true. unfold fbool. ring. }
    apply (g_sel _ _ _ (negb (((4 <=? i) && (i <? 20))%nat || (i =? 70)%nat))).
    { unfold not_expr. rewrite ev_sub, ev_cst1, !ev_sum, squeeze_next, !fs by (exact H || lia || reflexivity). cbn [sel].
      rewrite (proj2 (Nat.eqb_neq i 71)) by exact Hne. rewrite fb_or.
      - rewrite <- fb_not. unfold fbool at 2. ring.
      - apply andb_false_iff. destruct (Nat.eqb_spec i 70) as [->|]; [now left|now right]. }
    rewrite negb_true_iff, orb_false_iff, andb_false_iff, Nat.leb_gt, Nat.ltb_ge, Nat.eqb_neq. intros Hi.
    apply one. rewrite cur by exact H. unfold cell. rewrite rz_round by lia. unfold within.
    replace ((4 <=? Z.of_nat i) && (Z.of_nat i <? 20)) with false by (symmetry; apply andb_false_iff; rewrite Z.leb_gt, Z.ltb_ge; lia).
    rewrite (proj2 (Z.leb_gt 70 (Z.of_nat i))) by lia. reflexivity.
  - apply (g_sel _ _ _ ((sel QExtend j i || (68 <=? i)%nat) && negb (i =? 71)%nat)).
    { apply end_sel; [exact H|reflexivity|]. cbn [sel]. rewrite andb_true_iff, Nat.ltb_lt. lia. }
    intros HE. apply end_cases in HE. cbn [sel] in HE. rewrite andb_true_iff, Nat.leb_le, Nat.ltb_lt in HE.
    apply one. rewrite cur, c_len by exact H. unfold d_len. rewrite (proj2 (Nat.ltb_ge i 4)), (proj2 (Nat.ltb_ge i 20)), (proj2 (Nat.eqb_neq i 71)) by lia. reflexivity.
Qed.

(** rows outside the assigned part: every selector is zero *)
Lemma off_fixed c r : SHA_ROWS * nb <= r < n -> eval t r (qf c) = F0.
Proof.
  intros H. unfold qf. cbn [eval]. rewrite Z.add_0_r, Z.mod_small by (unfold assigned_table; cbn [rows]; unfold SHA_ROWS in *; lia).
  rewrite t_fixed by (unfold assigned_table; cbn [rows]; unfold SHA_ROWS in *; lia). rewrite (proj2 (Z.ltb_ge _ _)) by lia. reflexivity.
Qed.
Lemma h_off r : SHA_ROWS * nb <= r < n -> holds r sha_gates.
Proof.
  intros H. pose proof (fun c => off_fixed c r H) as Z0. unfold sha_gates. apply Forall_app. split; [repeat constructor|].
  assert (ZS : eval t r (sub_expr (qf QStart) (qf QFirst)) = F0) by (rewrite ev_sub, !Z0; ring).
  assert (G : forall c l, holds r (gate (qf c) l)) by (intros; apply g_off, Z0).
  repeat (apply Forall_app; split); try apply G.
  - apply g_on. repeat (apply Forall_app; split); apply g_off; solve [apply Z0 | exact ZS].
  - rewrite g_padding_eq. apply g_on. apply Forall_app; split; [|apply Forall_app; split].
    + apply Forall_flat_map, Forall_forall. intros e _. apply g_off, Z0.
    + apply Forall_flat_map, Forall_forall. intros k _. unfold pstep. cbv zeta. repeat (apply Forall_app; split); apply g_off.
      * apply Z0.
      * rewrite ev_and2, ev_sub, !Z0. ring.
      * rewrite ev_and3, !Z0. ring.
    + apply g_off. rewrite ev_and2, !Z0. ring.
  - unfold g_cross. cbv zeta. apply g_on. repeat (apply Forall_app; split); apply g_off; solve [apply Z0 | exact ZS].
Qed.
Theorem chain_satisfies : satisfies t sha_gates.
Proof.
  intros r Hr. change (rows t) with n in Hr. destruct (Z.lt_ge_cases r (SHA_ROWS * nb)) as [L|L]; [|apply h_off; lia].
  assert (E : exists j i, okr j i /\ r = rz j i).
  { exists (Z.to_nat (r / 72)), (Z.to_nat (r mod 72)). pose proof (Z.div_mod r 72 ltac:(lia)). pose proof (Z.mod_pos_bound r 72 ltac:(lia)).
    unfold SHA_ROWS, rz in *. assert (0 <= r / 72 < nb) by (split; [apply Z.div_pos; lia|apply Z.div_lt_upper_bound; lia]). unfold SHA_ROWS. lia. }
  destruct E as (j & i & H & ->). unfold sha_gates. apply Forall_app. split; [repeat constructor|].
  apply Forall_app; split; [now apply h_input_checks|]. apply Forall_app; split; [now apply h_w_extend|].
  apply Forall_app; split; [now apply h_compression|]. apply Forall_app; split; [now apply h_start|].
  apply Forall_app; split; [now apply h_end|]. apply Forall_app; split; [now apply h_is_final|].
  apply Forall_app; split; [now apply h_padding|]. apply Forall_app; split; [now apply h_word_value|].
  apply Forall_app; split; [now apply h_length|]. apply Forall_app; split; [now apply h_cross|].
  apply Forall_app; split; [now apply h_squeeze|now apply h_unused].
Qed.
End Comp.
