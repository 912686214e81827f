(** Powers of two, num_to_bits, bits_to_num, pow_var. *)
From Coq Require Import ZArith Lia List Bool Znumtheory Ring.
From Verif Require Import Field Context ContextProofs Spec Logic Utils Gate GateProofs ChainProofs IPProofs BitProofs.
Import ListNotations.
Local Open Scope Z_scope.

Section Pow.
Context {p : positive}.
Notation Fp := (F p).
Variable lb : nat.
Hypothesis Hp : prime (Z.pos p).
Notation sound := (sound lb).
Notation comp := (comp lb).
Add Ring Fring : (F_ring p) (morphism (F_morph p), constants [Fcst]).

Lemma prime_ge2 : 2 <= Z.pos p.
Proof using Hp. destruct Hp. lia. Qed.
Lemma CAP_pos : (1 <= CAPACITY p)%nat.
Proof using Hp.
  pose proof prime_ge2. unfold CAPACITY. pose proof (Z.log2_le_mono 2 (Z.pos p) H) as E. change (Z.log2 2) with 1 in E. lia.
Qed.

(** the powers of two as field elements *)
Definition pows (b n : nat) : list Fp := map (fun i => of_Z p (2 ^ Z.of_nat (b * i))) (seq 0 n).

Lemma pow_loop_spec n : forall k, pow_loop n (of_Z p (2 ^ Z.of_nat k)) = map (fun i => of_Z p (2 ^ Z.of_nat i)) (seq (S k) n).
Proof.
  induction n as [|n IH]; intros k; cbn [pow_loop seq map]; [reflexivity|].
  assert (E : (two * of_Z p (2 ^ Z.of_nat k))%F = of_Z p (2 ^ Z.of_nat (S k))).
  { unfold two. rewrite <- of_Z_mul. f_equal. now rewrite pow2_S. }
  rewrite E. f_equal. apply IH.
Qed.
Lemma pow_table_spec : pow_of_two_table (p:=p) = map (fun i => of_Z p (2 ^ Z.of_nat i)) (seq 0 (NUM_BITS p)).
Proof using Hp.
  unfold pow_of_two_table. pose proof CAP_pos. unfold NUM_BITS.
  replace (S (CAPACITY p)) with (S (S (CAPACITY p - 1))) by lia. cbn [seq map Nat.sub]. rewrite Nat.sub_0_r.
  f_equal. f_equal. apply (pow_loop_spec _ 1).
Qed.
Lemma pows1 n : pows 1 n = map (fun i => of_Z p (2 ^ Z.of_nat i)) (seq 0 n).
Proof. unfold pows. apply map_ext. intros i. now rewrite Nat.mul_1_l. Qed.
Lemma firstn_seq n m k : (n <= m)%nat -> firstn n (seq k m) = seq k n.
Proof.
  intros. replace m with (n + (m - n))%nat by lia. rewrite seq_app, firstn_app, seq_length, Nat.sub_diag.
  rewrite firstn_all2 by (rewrite seq_length; lia). cbn. now rewrite app_nil_r.
Qed.
Lemma slice_pow_table n : (n <= NUM_BITS p)%nat -> slice_to n (pow_of_two_table (p:=p)) = Some (pows 1 n).
Proof using Hp.
  intros H. unfold slice_to. rewrite pow_table_spec, map_length, seq_length.
  destruct (Nat.leb_spec n (NUM_BITS p)); [|lia]. now rewrite firstn_map, firstn_seq, pows1 by auto.
Qed.
Lemma slice_pow_table_inv n l : slice_to n (pow_of_two_table (p:=p)) = Some l -> (n <= NUM_BITS p)%nat /\ l = pows 1 n.
Proof using Hp.
  intros E. assert (n <= NUM_BITS p)%nat.
  { unfold slice_to in E. rewrite pow_table_spec, map_length, seq_length in E. destruct (Nat.leb_spec n (NUM_BITS p)); [auto|discriminate]. }
  rewrite slice_pow_table in E by auto. injection E as <-. auto.
Qed.
Lemma pows_length b n : length (pows b n) = n.
Proof. unfold pows. now rewrite map_length, seq_length. Qed.
Lemma pows_S b n : pows b (S n) = F1 :: map (fun x => of_Z p (2 ^ Z.of_nat b) * x)%F (pows b n).
Proof.
  unfold pows. cbn [seq map]. rewrite Nat.mul_0_r. f_equal. rewrite <- seq_shift, !map_map. apply map_ext. intros i.
  rewrite <- of_Z_mul. f_equal. rewrite <- pow2_add. f_equal. lia.
Qed.
Lemma dot_scale (c : Fp) xs ys : dot xs (map (fun x => c * x)%F ys) = (c * dot xs ys)%F.
Proof. revert ys. induction xs as [|x xs IH]; intros [|y ys]; cbn; try ring. rewrite IH. ring. Qed.
Lemma dot_pows b ds : dot (map (of_Z p) ds) (pows b (length ds)) = of_Z p (undigits b ds).
Proof.
  induction ds as [|d ds IH]; [reflexivity|]. cbn [length]. rewrite pows_S. cbn [map dot undigits].
  rewrite dot_scale, IH, of_Z_add, of_Z_mul. ring.
Qed.
Lemma map_of_Z_val (xs : list Fp) : map (of_Z p) (map val xs) = xs.
Proof. rewrite map_map. rewrite <- (map_id xs) at 2. apply map_ext. intros. apply of_Z_val. Qed.
Lemma dot_pows_val b (xs : list Fp) : dot xs (pows b (length xs)) = of_Z p (undigits b (map val xs)).
Proof. rewrite <- dot_pows, map_of_Z_val, map_length. reflexivity. Qed.
Lemma val_bit (x : Fp) : is_bit x -> 0 <= val x < 2 ^ Z.of_nat 1.
Proof using Hp. intros [-> | ->]; [rewrite val_0|rewrite val_1 by auto]; cbn; lia. Qed.
Lemma bit_val (x : Fp) : 0 <= val x < 2 ^ Z.of_nat 1 -> is_bit x.
Proof using Hp.
  change (2 ^ Z.of_nat 1) with 2. intros H. assert (val x = 0 \/ val x = 1) as [E|E] by lia; [left|right]; apply F_eq; rewrite E.
  - reflexivity. - now rewrite val_1.
Qed.
Lemma is_bit_of_digit d : 0 <= d < 2 -> is_bit (of_Z p d).
Proof. intros H. assert (d = 0 \/ d = 1) as [-> | ->] by lia; [left|right]; reflexivity. Qed.

(** a value that is, in the field, the sum of bounded limbs is their integer sum when there is no wrap-around *)
Lemma limbs_int b (xs : list Fp) x : Forall (fun y => 0 <= val y < 2 ^ Z.of_nat b) xs ->
  x = dot xs (pows b (length xs)) -> 2 ^ Z.of_nat (b * length xs) <= Z.pos p ->
  val x = undigits b (map val xs) /\ 0 <= val x < 2 ^ Z.of_nat (b * length xs) /\ map val xs = digits b (length xs) (val x).
Proof.
  intros HF Hx HB. rewrite dot_pows_val in Hx.
  assert (HF' : Forall (fun d => 0 <= d < 2 ^ Z.of_nat b) (map val xs)).
  { clear - HF. induction HF; cbn; constructor; auto. }
  pose proof (undigits_bound b _ HF') as HU. rewrite map_length in HU.
  assert (E : val x = undigits b (map val xs)) by (rewrite Hx; apply val_of_Z_small; lia).
  split; auto. split; [lia|]. rewrite E. rewrite <- (map_length val xs) at 1. now apply digits_unique.
Qed.

Lemma map_const_qsem sg (cs ys : list Fp) : Forall2 (qsem sg) (map Constant cs) ys -> ys = cs.
Proof. revert ys. induction cs as [|c cs IH]; intros ys H; inversion H; subst; auto. cbn in *. subst. f_equal; auto. Qed.
Lemma map_const_qh (cs : list Fp) : Forall2 qh (map Constant cs) cs.
Proof. induction cs; cbn; constructor; auto using qh_const. Qed.
Lemma map_wit_qh (cs : list Fp) : Forall2 qh (map Witness cs) cs.
Proof. induction cs; cbn; constructor; auto using qh_witness. Qed.
Lemma map_exist_qh (l : list (AV p)) vs : Forall2 hv l vs -> Forall2 qh (map Existing l) vs.
Proof. induction 1; cbn; constructor; auto using qh_existing. Qed.
Lemma map_exist_qsem sg (l : list (AV p)) vs : Forall2 (qsem sg) (map Existing l) vs -> vs = map (avs sg) l.
Proof. revert vs. induction l as [|c cs IH]; intros ys H; inversion H; subst; auto. cbn in *. subst. f_equal; auto. Qed.
Lemma map_exist_qok rho (l : list (AV p)) : Forall (av_ok rho) l -> Forall (q_ok rho) (map Existing l).
Proof. induction 1; cbn; constructor; auto. Qed.
Lemma map_const_qok rho (cs : list Fp) : Forall (q_ok rho) (map Constant cs).
Proof. induction cs; cbn; constructor; auto. exact I. Qed.
Lemma map_wit_qok rho (cs : list Fp) : Forall (q_ok rho) (map Witness cs).
Proof. induction cs; cbn; constructor; auto. exact I. Qed.

Lemma starts_pows b n : (0 < n)%nat -> starts_with_one (map Constant (pows b n)) = true.
Proof. intros. destruct n; [lia|]. rewrite pows_S. cbn. apply Feqb_eq. reflexivity. Qed.

Lemma ntb_gets (s : st p) row n : (0 < n)%nat ->
  bind (ctx_get (Z.of_nat row)) (fun b0 => bind (mapM (fun i => ctx_get (Z.of_nat (row + 1 + 3 * (i - 1)))) (seq 1 (n - 1)))
     (fun bs => ret (b0 :: bs))) s =
  mapM (fun i => ctx_get (Z.of_nat i)) (map (fun i => (row + ip_pos true i)%nat) (seq 0 n)) s.
Proof.
  intros Hn. destruct n as [|n]; [lia|]. cbn [seq map mapM]. replace (S n - 1)%nat with n by lia.
  cbn [ip_pos]. rewrite Nat.add_0_r. unfold bind. destruct (ctx_get (Z.of_nat row) s) as [[b0 s1]|]; [|reflexivity].
  rewrite <- (mapM_map (fun i => ctx_get (Z.of_nat i)) (fun i => (row + ip_pos true i)%nat)).
  rewrite (mapM_ext (fun i => ctx_get (Z.of_nat (row + 1 + 3 * (i - 1)))) (fun x => ctx_get (Z.of_nat (row + ip_pos true x)))); [reflexivity|].
  intros x Hx s2. apply in_seq in Hx. destruct x as [|x]; [lia|]. cbn [ip_pos]. do 2 f_equal. lia.
Qed.


Lemma num_to_bits_sound (a : AV p) n : sound (num_to_bits a n)
  (fun o => length o = n /\ (0 < n <= NUM_BITS p)%nat)
  (fun sg o => Forall is_bit (map (avs sg) o) /\ avs sg a = dot (map (avs sg) o) (pows 1 n)).
Proof using Hp.
  intros s o s' W H. unfold num_to_bits in H.
  apply bind_inv in H as (v & s0 & E0 & H). apply lift_inv in E0 as [_ ->].
  apply bind_inv in H as (limbs & s0 & E0 & H). apply lift_inv in E0 as [E0 ->].
  rewrite decompose_fe_correct in E0 by lia. injection E0 as <-.
  apply bind_inv in H as (row & s0 & E0 & H). injection E0 as <- <-.
  apply bind_inv in H as (pw & s0 & E0 & H). apply lift_inv in E0 as [E0 ->]. apply slice_pow_table_inv in E0 as [Hn ->].
  apply bind_inv in H as (acc & s1 & E1 & H). unfold inner_product in E1. apply bind_inv in E1 as (one & s1' & E1 & E2).
  assert (LL : length (map (fun x => Witness (of_Z p x)) (digits 1 n (val v))) = length (map Constant (pows 1 n)))
    by (rewrite !map_length, digits_length, pows_length; reflexivity).
  apply (ip_core_sound lb) in E1 as (W1 & X1 & O1 & Z1 & L1 & S1); auto.
  apply last_at in E2 as (E2 & A1); auto. subst s1. rename s1' into s1. rewrite map_length, digits_length in *.
  apply bind_inv in H as (u & s2 & E2 & H). apply constrain_equal_spec in E2 as (W2 & X2 & A2 & S2); auto.
  apply bind_inv in H as (u' & s3 & E3 & H). apply assert_inv in E3 as [E3 ->]. apply Nat.ltb_lt in E3.
  rewrite starts_pows in O1 by auto. subst one.
  apply bind_inv in H as (b0 & s3 & G0 & H). apply bind_inv in H as (bs & s4 & G1 & H).
  assert (G : mapM (fun i => ctx_get (Z.of_nat i)) (map (fun i => (alen s + ip_pos true i)%nat) (seq 0 n)) s2 = Some (b0 :: bs, s4)).
  { rewrite <- ntb_gets by auto. unfold bind. rewrite G0, G1. reflexivity. }
  clear G0 G1. apply mapM_get in G as (-> & F2); auto.
  apply bind_inv in H as (u'' & s5 & E5 & H). injection H as <- <-.
  destruct (sound_iterM lb assert_bit (fun sg x => is_bit (avs sg x)) (b0 :: bs)
     (fun x _ => assert_bit_sound lb Hp x) s2 u'' s5 W2 E5) as (W5 & X5 & _ & Q5).
  assert (X12 : ext s s2) by (eapply ext_trans; eauto).
  split; auto. split; [eapply ext_trans; eauto|]. split.
  { split; [|lia]. apply Forall2_len in F2. rewrite map_length, seq_length in F2. auto. }
  intros sg HS. pose proof (Q5 sg HS) as HB. apply (sat_mono _ _ _ _ X5), S2 in HS as [HS HE].
  destruct (S1 sg HS) as (xs & ys & Fx & Fy & Vx & Vs).
  apply map_const_qsem in Fy. subst ys.
  pose proof (Forall2_len _ _ _ Fx) as Lx. rewrite map_length, digits_length in Lx.
  assert (EM : map (avs sg) (b0 :: bs) = xs).
  { eapply gets_values with (s := s) (s1 := s2) (f := ip_pos true) (n := n); eauto. }
  rewrite EM. split. { rewrite <- EM. clear - HB. induction HB; cbn; constructor; auto. }
  rewrite HE. replace (alen s1 - 1)%nat with (alen s + 3 * ip_gates true n)%nat in A1 by lia.
  rewrite (at_off_avs _ _ _ _ sg X1 A1), Vs by lia. cbn [ip_gates]. replace (S (n - 1)) with n by lia.
  rewrite !firstn_all2; rewrite ?pows_length; auto; lia.
Qed.

(** in integers *)
Lemma num_to_bits_sound_int (a : AV p) n : 2 ^ Z.of_nat n <= Z.pos p -> sound (num_to_bits a n)
  (fun o => length o = n)
  (fun sg o => val (avs sg a) < 2 ^ Z.of_nat n /\ map (fun x => val (avs sg x)) o = digits 1 n (val (avs sg a))).
Proof using Hp.
  intros HB. eapply sound_weaken; [apply num_to_bits_sound|intros ? H0; exact (proj1 H0)|]. intros sg o [Lo _] [H1 H2].
  assert (Ll : length (map (avs sg) o) = n) by (rewrite map_length; auto).
  rewrite <- Ll in H2. apply limbs_int in H2 as (E1 & E2 & E3).
  - rewrite Ll, Nat.mul_1_l in *. split; [lia|]. rewrite <- E3, map_map. reflexivity.
  - clear - H1 Hp. induction H1; constructor; auto. now apply val_bit.
  - rewrite Ll, Nat.mul_1_l. exact HB.
Qed.

Lemma num_to_bits_comp (a : AV p) x n : hv a x -> (0 < n <= NUM_BITS p)%nat -> val x < 2 ^ Z.of_nat n ->
  comp (fun rho => av_ok rho a) (num_to_bits a n)
   (fun o => Forall2 hv o (map (of_Z p) (digits 1 n (val x)))) (fun rho o => Forall (av_ok rho) o).
Proof using Hp.
  intros Ha Hn Hx s W. unfold num_to_bits.
  set (ds := map (of_Z p) (digits 1 n (val x))).
  assert (Lds : length ds = n) by (unfold ds; rewrite map_length; apply digits_length).
  assert (Edot : dot ds (pows 1 n) = x).
  { unfold ds. rewrite <- (digits_length 1 n (val x)) at 2. rewrite dot_pows, undigits_digits, Nat.mul_1_l.
    rewrite Z.mod_small by (pose proof (val_bounds p x); lia). apply of_Z_val. }
  assert (Ew : map (fun y => Witness (of_Z p y)) (digits 1 n (val x)) = map Witness ds) by (unfold ds; now rewrite map_map).
  destruct (ip_core_comp lb (map Witness ds) (map Constant (pows 1 n)) ds (pows 1 n) s W (map_wit_qh _) (map_const_qh _))
    as (s1 & E1 & W1 & X1 & L1 & Z1 & V1 & V2 & S1); [rewrite !map_length, pows_length; auto|].
  rewrite starts_pows in * by lia. rewrite map_length, Lds in *.
  destruct (last_total s1) as [acc E2]; [lia|]. pose proof (last_at _ _ _ W1 E2) as [_ A2].
  replace (alen s1 - 1)%nat with (alen s + 3 * ip_gates true n)%nat in A2 by lia.
  assert (Hacc : hv acc x).
  { eapply at_off_hv; [exact A2|]. rewrite V2 by lia. do 2 f_equal. cbn [ip_gates]. replace (S (n - 1)) with n by lia.
    rewrite !firstn_all2 by (rewrite ?pows_length; lia). exact Edot. }
  destruct (constrain_equal_total a acc s1 W1) as [s2 E3]; [apply Ha|apply Hacc|].
  pose proof (constrain_equal_spec _ _ _ _ _ W1 E3) as (W2 & X2 & Adv2 & S2).
  destruct (mapM_get_total (map (fun i => (alen s + ip_pos true i)%nat) (seq 0 n)) s2 W2) as [o G].
  { rewrite Forall_forall. intros i Hi. apply in_map_iff in Hi as (j & <- & Hj). apply in_seq in Hj.
    assert (HS : nth_error (advice s2) (alen s + ip_pos true j) <> None) by (rewrite Adv2, V1 by lia; discriminate).
    apply nth_error_Some in HS. exact HS. }
  pose proof G as G'. apply mapM_get in G' as (_ & F2); auto.
  assert (Ho : Forall2 hv o ds).
  { eapply gets_hv with (s := s) (s1 := s2) (f := ip_pos true) (n := n); eauto. rewrite Adv2. intros i Hi. apply V1. auto. }
  destruct (comp_iterM lb assert_bit o (fun rho => Forall (av_ok rho) o)) with (s := s2) as (u & s3 & E4 & W3 & X3 & _ & R3); auto.
  { intros y Hy. apply In_nth_error in Hy as [i Hi]. destruct (Forall2_nth_l _ _ _ Ho _ _ Hi) as (v & Ev & Hv).
    eapply comp_weaken; [apply (assert_bit_comp lb Hp y v Hv)| |auto|auto].
    - assert (Hin : In v ds) by eauto using nth_error_In. unfold ds in Hin. apply in_map_iff in Hin as (d & <- & Hd).
      apply is_bit_of_digit. pose proof (digits_bound 1 n (val x)) as HF. rewrite Forall_forall in HF. apply HF in Hd. exact Hd.
    - intros rho HF. cbv beta in HF. apply nth_error_In in Hi. rewrite Forall_forall in HF. exact (HF _ Hi). }
  exists o, s3. split.
  { unfold bind at 1. unfold lift at 1. rewrite (hv_val _ _ Ha). unfold bind at 1, lift at 1. rewrite decompose_fe_correct by lia.
    unfold bind at 1, ctx_len at 1. unfold bind at 1, lift at 1. rewrite slice_pow_table by lia. rewrite Ew.
    unfold bind at 1, inner_product, bind at 1. rewrite E1, E2. unfold bind at 1. rewrite E3.
    unfold bind at 1, assert_. destruct (Nat.ltb_spec 0 n); [|lia]. unfold ret at 1.
    rewrite <- ntb_gets in G by lia. unfold bind in G |- *.
    destruct (ctx_get (Z.of_nat (alen s)) s2) as [[b0 s4]|]; [|discriminate].
    destruct (mapM (fun i => ctx_get (Z.of_nat (alen s + 1 + 3 * (i - 1)))) (seq 1 (n - 1)) s4) as [[bs s5]|]; [|discriminate].
    injection G as <- ->. rewrite E4. reflexivity. }
  split; auto. split; [eauto using ext_trans|]. split; auto.
  intros rho HA HS Oa. pose proof (agree_mono _ _ _ X3 HA) as HA2. pose proof (agree_mono _ _ _ X2 HA2) as HA1.
  assert (Oo : Forall (av_ok rho) o).
  { clear - F2 HA2. induction F2; constructor; auto. eapply av_in_ok; eauto. eapply at_off_in; eauto. }
  assert (HS1 : Sat lb rho s1) by (apply S1; auto using map_wit_qok, map_const_qok).
  assert (Oacc : av_ok rho acc) by (eapply av_in_ok; eauto; eapply at_off_in; eauto).
  assert (HS2 : Sat lb rho s2). { apply S2. split; auto. now rewrite (hv_ok _ _ _ Ha Oa), (hv_ok _ _ _ Hacc Oacc). }
  destruct (R3 rho HA HS2 Oo). auto.
Qed.

Lemma bits_to_num_sound (bits : list (AV p)) : sound (bits_to_num bits) (fun _ => (length bits <= CAPACITY p)%nat)
  (fun sg o => avs sg o = of_Z p (undigits 1 (map (fun x => val (avs sg x)) bits))).
Proof using Hp.
  unfold bits_to_num. apply sound_assert_bind. intros HC. apply Nat.leb_le in HC. apply sound_lift_bind. intros pw E.
  apply slice_pow_table_inv in E as [_ ->].
  eapply sound_weaken; [apply inner_product_sound; rewrite !map_length, pows_length; auto|auto|].
  intros sg o _ (xs & ys & Fx & Fy & Ho). apply map_const_qsem in Fy. apply map_exist_qsem in Fx. subst.
  rewrite Ho. rewrite <- (map_length (avs sg) bits) at 1. rewrite dot_pows_val, map_map. reflexivity.
Qed.
Lemma bits_to_num_comp (bits : list (AV p)) vs : Forall2 hv bits vs -> (length bits <= CAPACITY p)%nat ->
  comp (fun rho => Forall (av_ok rho) bits) (bits_to_num bits) (fun o => hv o (of_Z p (undigits 1 (map val vs)))) (fun rho o => av_ok rho o).
Proof using Hp.
  intros HB HC. unfold bits_to_num. apply comp_assert_bind; [now apply Nat.leb_le|].
  eapply comp_lift_bind; [apply slice_pow_table; unfold NUM_BITS; lia|].
  eapply comp_weaken; [apply (inner_product_comp lb _ _ vs (pows 1 (length bits)) (map_exist_qh _ _ HB) (map_const_qh _))|..].
  - now rewrite !map_length, pows_length.
  - intros rho HF. split; auto using map_exist_qok, map_const_qok.
  - intros o Ho. rewrite <- dot_pows_val, <- (Forall2_len _ _ _ HB). exact Ho.
  - auto.
Qed.

(** ** pow_var *)
Lemma Fpow_add (a : Fp) m n : Fpow a (m + n) = (Fpow a m * Fpow a n)%F.
Proof. induction m as [|m IH]; cbn; [ring|]. rewrite IH. ring. Qed.

(** square-and-multiply over bits given most significant first *)
Definition sqm (a : Fp) (acc : Fp) (b : Fp) : Fp := ((acc * acc * a - acc * acc) * b + acc * acc)%F.
Lemma sqm_bits (a : Fp) (ds : list Z) : Forall (fun d => 0 <= d < 2) ds ->
  forall acc, fold_left (sqm a) (map (of_Z p) (rev ds)) acc =
    (Fpow acc (2 ^ length ds) * Fpow a (Z.to_nat (undigits 1 ds)))%F.
Proof.
  intros HF. induction HF as [|d ds Hd HF IH]; intros acc.
  - cbn. ring.
  - cbn [rev]. rewrite map_app, fold_left_app, IH. cbn [map fold_left undigits length Nat.pow].
    pose proof (undigits_bound 1 ds HF) as HU. change (2 ^ Z.of_nat 1) with 2 in *.
    set (U := undigits 1 ds) in *.
    replace (2 * 2 ^ length ds)%nat with (2 ^ length ds + 2 ^ length ds)%nat by lia. rewrite Fpow_add.
    assert (d = 0 \/ d = 1) as [-> | ->] by lia; unfold sqm.
    + replace (Z.to_nat (0 + 2 * U)) with (Z.to_nat U + Z.to_nat U)%nat by lia. rewrite Fpow_add. ring.
    + replace (Z.to_nat (1 + 2 * U)) with (S (Z.to_nat U + Z.to_nat U))%nat by lia. cbn [Fpow]. rewrite Fpow_add. ring.
Qed.
Lemma Fpow_1 n : Fpow (F1 : Fp) n = F1.
Proof. induction n; cbn; auto. rewrite IHn. ring. Qed.
Lemma Fpow_pow2_sqr (x : Fp) : (x * x)%F = Fpow x 2.
Proof. cbn. ring. Qed.

Lemma pow_step_sound (a acc : AV p) ib : sound (pow_step a acc ib) (fun _ => True)
  (fun sg o => (fst ib = O -> avs sg acc = F1) -> avs sg o = sqm (avs sg a) (avs sg acc) (avs sg (snd ib))).
Proof.
  unfold pow_step. destruct ib as [i b]. cbn [fst snd]. destruct (Nat.ltb_spec 0 i).
  - eapply sound_bind; [apply mul_sound|]. intros sq _. eapply sound_bind; [apply mul_sound|]. intros m _.
    eapply sound_weaken; [apply select_sound|auto|]. cbn.
    intros sg o _ (x & y & z & -> & -> & -> & ->) (? & ? & -> & -> & ->) (? & ? & -> & -> & ->) _. unfold sqm. ring.
  - eapply sound_bind; [apply (sound_ret lb acc (fun o => o = acc) (fun _ _ => True)); auto|]. intros sq ->. eapply sound_bind; [apply mul_sound|]. intros m _.
    eapply sound_weaken; [apply select_sound|auto|]. cbn.
    intros sg o _ (x & y & z & -> & -> & -> & ->) (? & ? & -> & -> & ->) _ H1. unfold sqm. rewrite H1 by lia. ring.
Qed.
Lemma pow_step_comp (a acc : AV p) ib va vacc vb : hv a va -> hv acc vacc -> hv (snd ib) vb -> (fst ib = O -> vacc = F1) ->
  comp (fun rho => av_ok rho a /\ av_ok rho acc /\ av_ok rho (snd ib)) (pow_step a acc ib)
    (fun o => hv o (sqm va vacc vb)) (fun rho o => av_ok rho o).
Proof.
  intros Ha Hacc Hb H1. unfold pow_step. destruct ib as [i b]. cbn [fst snd] in *.
  eapply comp_bind with (P1 := fun sq => hv sq (vacc * vacc)%F) (Q1 := fun rho o => av_ok rho o) (H1 := fun rho => av_ok rho acc).
  { destruct (Nat.ltb_spec 0 i).
    - eapply comp_weaken; [apply mul_comp; eauto using qh_existing| |auto|auto]. intros rho; split; auto.
    - apply comp_ret; auto. rewrite H1 by lia. replace (1 * 1)%F with (F1 : Fp) by ring. rewrite <- H1 at 1 by lia. auto. }
  { tauto. }
  intros sq Hsq. eapply comp_bind; [apply mul_comp; eauto using qh_existing|intros rho H; split; cbn; tauto|]. intros m Hm. cbv beta in Hm.
  eapply comp_weaken; [apply select_comp; eauto using qh_existing| | |auto].
  - intros rho H. repeat split; cbn; try tauto; apply H.
  - intros o Ho. replace (sqm va vacc vb) with ((vacc * vacc * va - vacc * vacc) * vb + vacc * vacc)%F; auto.
Qed.

Lemma pow_fold_sound (a : AV p) (bits : list (AV p)) acc : sound
  (foldM (pow_step a) (combine (seq 0 (length bits)) bits) acc) (fun _ => True)
  (fun sg o => avs sg acc = F1 -> avs sg o = fold_left (sqm (avs sg a)) (map (avs sg) bits) (avs sg acc)).
Proof.
  eapply sound_weaken.
  - apply (sound_foldM lb (pow_step a) (fun _ _ => True) (fun done sg o => avs sg acc = F1 ->
       (done = [] -> avs sg o = F1) /\ avs sg o = fold_left (sqm (avs sg a)) (map (fun ib => avs sg (snd ib)) done) (avs sg acc))); auto.
    intros done ib rest b E _. eapply sound_weaken; [apply pow_step_sound|auto|].
    intros sg o _ H1 HQ H2. destruct (HQ H2) as [H3 H4]. split; [destruct done; discriminate|].
    rewrite map_app, fold_left_app. cbn [map fold_left]. rewrite <- H4. apply H1.
    intros Hi. apply H3. destruct done as [|d done]; auto. exfalso.
    destruct bits as [|bt bits]; [discriminate|]. cbn [length seq combine] in E. injection E as <- E.
    assert (In ib (combine (seq 1 (length bits)) bits)) by (rewrite E; apply in_or_app; right; now left).
    destruct ib as [i bb]. apply in_combine_l, in_seq in H. cbn in Hi. lia.
  - auto.
  - intros sg o _ H H1. destruct (H (fun _ => conj (fun _ => H1) eq_refl) H1) as [_ ->].
    f_equal. clear. generalize 0%nat. induction bits as [|b l IH]; intros k; cbn; [reflexivity|]. now rewrite IH.
Qed.

Lemma pow_fold_comp (a : AV p) va (bits : list (AV p)) vs acc : hv a va -> Forall2 hv bits vs -> hv acc F1 -> comp
  (fun rho => av_ok rho a /\ Forall (av_ok rho) bits /\ av_ok rho acc)
  (foldM (pow_step a) (combine (seq 0 (length bits)) bits) acc)
  (fun o => hv o (fold_left (sqm va) vs F1)) (fun rho o => av_ok rho o).
Proof.
  intros Ha HB Hacc.
  assert (HG : forall bits vs k acc vacc, Forall2 hv bits vs -> hv acc vacc -> (k = O -> vacc = F1) ->
    comp (fun rho => av_ok rho a /\ Forall (av_ok rho) bits /\ av_ok rho acc)
    (foldM (pow_step a) (combine (seq k (length bits)) bits) acc)
    (fun o => hv o (fold_left (sqm va) vs vacc)) (fun rho o => av_ok rho o)).
  { clear bits vs acc HB Hacc. induction bits as [|b bits IH]; intros vs k acc vacc HB Hacc Hk; inversion HB as [|? v ? vs' Hv HB']; subst;
      cbn [length seq combine foldM fold_left].
    - apply comp_ret; auto. tauto.
    - eapply comp_bind; [apply (pow_step_comp a acc (k, b) va vacc v); auto|..].
      + intros rho (H1 & H2 & H3). inversion H2; subst. auto.
      + intros o Ho. eapply comp_weaken; [apply (IH vs' (S k) o _ HB' Ho); discriminate| |auto|auto].
        intros rho [(H1 & H2 & H3) H4]. inversion H2; subst. auto. }
  apply (HG bits vs O acc F1); auto.
Qed.

Lemma pow_var_sound (a exp : AV p) n : 2 ^ Z.of_nat n <= Z.pos p -> sound (pow_var a exp n) (fun _ => True)
  (fun sg o => val (avs sg exp) < 2 ^ Z.of_nat n /\ avs sg o = Fpow (avs sg a) (Z.to_nat (val (avs sg exp)))).
Proof using Hp.
  intros HB. unfold pow_var. eapply sound_bind; [apply (num_to_bits_sound_int exp n HB)|]. intros bits Lb.
  eapply sound_bind; [apply sound_load_constant|]. intros acc _.
  rewrite <- (rev_length bits). eapply sound_weaken; [apply pow_fold_sound|auto|].
  intros sg o _ HF HA (Hlt & Hd). split; auto. rewrite HF by auto. rewrite HA.
  rewrite map_rev. replace (map (avs sg) bits) with (map (of_Z p) (digits 1 n (val (avs sg exp)))).
  - rewrite <- map_rev, sqm_bits by apply (digits_bound 1). rewrite Fpow_1, undigits_digits, Nat.mul_1_l.
    rewrite Z.mod_small by (pose proof (val_bounds p (avs sg exp)); lia). ring.
  - rewrite <- Hd, map_map. apply map_ext. intros. apply of_Z_val.
Qed.
Lemma pow_var_comp (a exp : AV p) n va x : hv a va -> hv exp x -> (0 < n <= NUM_BITS p)%nat -> val x < 2 ^ Z.of_nat n ->
  comp (fun rho => av_ok rho a /\ av_ok rho exp) (pow_var a exp n)
    (fun o => hv o (Fpow va (Z.to_nat (val x)))) (fun rho o => av_ok rho o).
Proof using Hp.
  intros Ha Hx Hn Hlt. unfold pow_var. eapply comp_bind; [apply (num_to_bits_comp exp x n Hx Hn Hlt)|tauto|]. intros bits HB. cbv beta in HB.
  eapply comp_bind; [apply (comp_load_constant lb F1 (fun _ => True))|exact (fun _ _ => I)|]. intros acc Hacc.
  rewrite <- (rev_length bits).
  eapply comp_weaken; [apply (pow_fold_comp a va (rev bits) (rev (map (of_Z p) (digits 1 n (val x)))) acc Ha)|..]; auto.
  - clear - HB. induction HB; cbn; [constructor|]. apply Forall2_app; auto.
  - intros rho [[[H1 H2] H3] H4]. split; auto. split; auto. now apply Forall_rev.
  - intros o Ho. rewrite <- map_rev, sqm_bits in Ho by apply (digits_bound 1). rewrite Fpow_1, undigits_digits, Nat.mul_1_l in Ho.
    rewrite Z.mod_small in Ho by (pose proof (val_bounds p x); lia). replace (1 * Fpow va (Z.to_nat (val x)))%F with (Fpow va (Z.to_nat (val x))) in Ho by ring. exact Ho.
Qed.
End Pow.
