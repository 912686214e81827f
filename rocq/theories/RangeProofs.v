(** Soundness and completeness of the range chip primitives: [_range_check] and [range_check]. *)
From Coq Require Import ZArith Znumtheory Lia List Bool Ring.
From Verif Require Import Field Spec Context ContextProofs Utils Logic Gate GateProofs ChainProofs IPProofs BitProofs PowProofs Range.
Import ListNotations.
Local Open Scope Z_scope.
Local Open Scope monad_scope.

Lemma ceil_split n lb : (0 < n)%nat -> (0 < lb)%nat ->
  let k := ceil_div n lb in let rem := (n mod lb)%nat in
  (1 <= k)%nat /\ n = (lb * (k - 1) + (if Nat.eqb rem 0 then lb else rem))%nat /\ (rem < lb)%nat.
Proof.
  intros Hn Hl. cbn zeta. unfold ceil_div.
  pose proof (Nat.div_mod n lb ltac:(lia)) as E. pose proof (Nat.mod_upper_bound n lb ltac:(lia)) as Hm.
  set (q := (n / lb)%nat) in *. set (r := (n mod lb)%nat) in *.
  destruct (Nat.eqb_spec r 0) as [R0|R0].
  - assert ((n + lb - 1) / lb = q)%nat as ->. { symmetry. apply (Nat.div_unique _ lb q (lb - 1)); lia. }
    assert (1 <= q)%nat by nia. split; [lia|]. split; [|lia]. nia.
  - assert ((n + lb - 1) / lb = S q)%nat as ->. { symmetry. apply (Nat.div_unique _ lb (S q) (r - 1)); nia. }
    split; [lia|]. split; [|lia]. replace (S q - 1)%nat with q by lia. lia.
Qed.
Lemma ceil_0 lb : (0 < lb)%nat -> ceil_div 0 lb = O.
Proof. intros. unfold ceil_div. apply Nat.div_small. lia. Qed.
Lemma ceil_ge n lb : (0 < lb)%nat -> (n <= ceil_div n lb * lb)%nat.
Proof.
  intros Hl. destruct n as [|n]; [lia|]. destruct (ceil_split (S n) lb) as (H1 & H2 & H3); [lia..|].
  destruct (Nat.eqb_spec (S n mod lb) 0); nia.
Qed.

Section RangeProofs.
Context {p : positive} (lb : nat).
Context (Hp : prime (Z.pos p)).
Notation Fp := (F p).
Notation sound := (sound (p:=p) lb).
Notation comp := (comp (p:=p) lb).
Add Ring Fring : (F_ring p) (morphism (F_morph p), constants [Fcst]).
(** configuration: RangeConfig asserts lookup_bits <= F::S (range/mod.rs:66), 28 for BN254 with CAPACITY 253 *)
Context (Hlb : (1 <= lb < 64)%nat) (Hlb2 : (2 * lb <= CAPACITY p)%nat).

Lemma pow_nth k : (k < NUM_BITS p)%nat -> nth_error (pow_of_two_table (p:=p)) k = Some (of_Z p (2 ^ Z.of_nat k)).
Proof.
  intros H. rewrite pow_table_spec by auto.
  rewrite (nth_error_nth' _ F0) by now rewrite map_length, seq_length. f_equal.
  rewrite nth_indep with (d' := of_Z p (2 ^ Z.of_nat 0)) by now rewrite map_length, seq_length.
  rewrite (map_nth (fun i => of_Z p (2 ^ Z.of_nat i))), seq_nth by auto. reflexivity.
Qed.
Lemma pow_nth_inv k x : nth_error (pow_of_two_table (p:=p)) k = Some x -> (k < NUM_BITS p)%nat /\ x = of_Z p (2 ^ Z.of_nat k).
Proof.
  intros H. assert (k < NUM_BITS p)%nat.
  { assert (N : nth_error (pow_of_two_table (p:=p)) k <> None) by congruence. apply nth_error_Some in N.
    rewrite pow_table_spec, map_length, seq_length in N by auto. auto. }
  rewrite pow_nth in H by auto. injection H as <-. auto.
Qed.
Lemma pow2_le_p k : (k <= CAPACITY p)%nat -> 2 ^ Z.of_nat k <= Z.pos p.
Proof. intros H. pose proof (CAPACITY_bound p) as [B _]. pose proof (pow2_le _ _ H). lia. Qed.
Lemma CAP_ge_2 : (2 <= CAPACITY p)%nat.
Proof. lia. Qed.

Lemma base_loop_spec n : forall k, base_loop lb n (of_Z p (2 ^ Z.of_nat (lb * k))) =
  map (fun i => Constant (of_Z p (2 ^ Z.of_nat (lb * i)))) (seq (S k) n).
Proof.
  induction n as [|n IH]; intros k; cbn [base_loop seq map]; [reflexivity|].
  assert (E : (of_Z p (2 ^ Z.of_nat (lb * k)) * limb_base lb)%F = of_Z p (2 ^ Z.of_nat (lb * S k))).
  { unfold limb_base. rewrite <- of_Z_mul. f_equal. replace (lb * S k)%nat with (lb * k + lb)%nat by lia. now rewrite pow2_add. }
  rewrite E. f_equal. apply IH.
Qed.
Lemma limb_bases_spec : limb_bases (p:=p) lb = map Constant (pows lb (S (Nat.max 1 (num_bases (p:=p) lb)))).
Proof.
  unfold limb_bases, pows. rewrite map_map.
  replace (S (Nat.max 1 (num_bases (p:=p) lb))) with (S (S (num_bases (p:=p) lb - 1))) by lia. cbn [seq map].
  rewrite Nat.mul_0_r, Nat.mul_1_r. f_equal. f_equal. unfold limb_base. pose proof (base_loop_spec (num_bases (p:=p) lb - 1) 1) as H. rewrite Nat.mul_1_r in H. exact H.
Qed.
Lemma limb_bases_slice k : (k <= length (limb_bases (p:=p) lb))%nat -> slice_to k (limb_bases (p:=p) lb) = Some (map Constant (pows lb k)).
Proof.
  intros H. unfold slice_to. destruct (Nat.leb_spec k (length (limb_bases (p:=p) lb))); [|lia]. f_equal.
  rewrite limb_bases_spec in *. rewrite map_length, pows_length in H. unfold pows. rewrite !map_map, firstn_map, firstn_seq by lia. reflexivity.
Qed.
Lemma limb_bases_len k : (lb * k <= CAPACITY p)%nat -> (k <= length (limb_bases (p:=p) lb))%nat.
Proof.
  intros H. rewrite limb_bases_spec, map_length, pows_length. unfold num_bases.
  assert (k <= CAPACITY p / lb)%nat by (apply Nat.div_le_lower_bound; lia). lia.
Qed.

(** looking up cells by position *)
Lemma lookup_at_spec i (s : st p) u s' : wf s -> lookup_at i s = Some (u, s') ->
  wf s' /\ ext s s' /\ advice s' = advice s /\ forall sg, Sat lb sg s' <-> Sat lb sg s /\ 0 <= val (sg (cl s i)) < 2 ^ Z.of_nat lb.
Proof.
  intros W H. unfold lookup_at in H. apply bind_inv in H as (x & s1 & E & H). apply get_at in E as [-> [A1 A2]]; auto.
  apply add_cell_to_lookup_spec in H as (W1 & X1 & Ad & S1); auto. do 3 (split; auto). intros sg. rewrite S1.
  unfold avs. rewrite A1. reflexivity.
Qed.
Lemma lookup_at_total i (s : st p) : wf s -> (i < alen s)%nat -> exists s', lookup_at i s = Some (tt, s').
Proof.
  intros W H. destruct (ctx_get_abs_total s i H) as [x E]. unfold lookup_at, bind. rewrite E. apply add_cell_to_lookup_total.
Qed.
Lemma lookups_at_spec l : forall (s : st p) u s', wf s -> iterM lookup_at l s = Some (u, s') ->
  wf s' /\ ext s s' /\ advice s' = advice s /\
  forall sg, Sat lb sg s' <-> Sat lb sg s /\ Forall (fun i => 0 <= val (sg (cl s i)) < 2 ^ Z.of_nat lb) l.
Proof.
  induction l as [|i l IH]; intros s u s' W H; cbn [iterM] in H.
  - injection H as <- <-. split; auto. split; [apply ext_refl|]. split; auto. intros sg. split; auto. tauto.
  - apply bind_inv in H as ([] & s1 & E & H). apply lookup_at_spec in E as (W1 & X1 & A1 & S1); auto.
    apply IH in H as (W2 & X2 & A2 & S2); auto. split; auto. split; [eauto using ext_trans|]. split; [congruence|].
    intros sg. rewrite S2, S1. assert (E : cl s1 = cl s) by (unfold cl; now rewrite (ext_tid _ _ X1), (ext_cid _ _ X1)). rewrite E.
    split; intros H0; [destruct H0 as [[? ?] ?]; auto|]. destruct H0 as [? HF]. inversion HF; subst. auto.
Qed.
Lemma lookups_at_total l : forall (s : st p), wf s -> Forall (fun i => (i < alen s)%nat) l -> exists s', iterM lookup_at l s = Some (tt, s').
Proof.
  induction l as [|i l IH]; intros s W HF; cbn [iterM]; [exists s; reflexivity|]. inversion HF; subst.
  destruct (lookup_at_total i s W H1) as [s1 E]. pose proof (lookup_at_spec _ _ _ _ W E) as (W1 & X1 & A1 & _).
  destruct (IH s1 W1) as [s2 E2]; [unfold alen in *; now rewrite A1|]. exists s2. unfold bind. now rewrite E.
Qed.

(** the multi-limb branch of [_range_check] *)
Definition rc_limbs (a : AV p) (k : nat) : M p (AV p) :=
  v <- lift (av_value a) ;;
  limbs <- lift (decompose_fe_to_u64_limbs v k lb) ;;
  row <- ctx_len ;;
  bases <- lift (slice_to k (limb_bases lb)) ;;
  acc <- inner_product (map (fun x => Witness (of_Z p x)) limbs) bases ;;
  constrain_equal a acc ;;;
  lookup_at row ;;;
  iterM (fun i => lookup_at (row + 1 + 3 * i)%nat) (seq 0 (k - 1)) ;;;
  ctx_get (Z.of_nat (row + 1 + 3 * (k - 2))).

Lemma lookups_join row k s : (0 < k)%nat ->
  bind (lookup_at row) (fun _ => iterM (fun i => lookup_at (row + 1 + 3 * i)%nat) (seq 0 (k - 1))) s =
  iterM (lookup_at (p:=p)) (map (fun i => (row + ip_pos true i)%nat) (seq 0 k)) s.
Proof.
  intros Hk. destruct k as [|k]; [lia|]. cbn [seq map iterM]. replace (S k - 1)%nat with k by lia. cbn [ip_pos]. rewrite Nat.add_0_r.
  unfold bind. destruct (lookup_at row s) as [[u s1]|]; auto.
  rewrite <- (seq_shift k 0), map_map. clear. revert s1. generalize (seq 0 k). induction l as [|i l IH]; intros s1; cbn [map iterM]; auto.
  cbn [ip_pos]. replace (row + (3 * i + 1))%nat with (row + 1 + 3 * i)%nat by lia. unfold bind. destruct (lookup_at _ s1) as [[v s2]|]; auto.
Qed.

Lemma rc_limbs_sound (a : AV p) k : (2 <= k)%nat -> (k <= length (limb_bases (p:=p) lb))%nat -> sound (rc_limbs a k) (fun _ => True)
  (fun sg o => exists T, 0 <= T < 2 ^ Z.of_nat (lb * k) /\ avs sg a = of_Z p T /\ val (avs sg o) = T / 2 ^ Z.of_nat (lb * (k - 1)) /\
     val (avs sg o) < 2 ^ Z.of_nat lb).
Proof.
  intros Hk HC s o s' W H. unfold rc_limbs in H.
  apply bind_inv in H as (v & s0 & E0 & H). apply lift_inv in E0 as [_ ->].
  apply bind_inv in H as (limbs & s0 & E0 & H). apply lift_inv in E0 as [E0 ->].
  rewrite decompose_fe_correct in E0 by lia. injection E0 as <-.
  apply bind_inv in H as (row & s0 & E0 & H). injection E0 as <- <-.
  apply bind_inv in H as (pw & s0 & E0 & H). apply lift_inv in E0 as [E0 ->].
  rewrite limb_bases_slice in E0 by assumption. injection E0 as <-.
  apply bind_inv in H as (acc & s1 & E1 & H). unfold inner_product in E1. apply bind_inv in E1 as (one & s1' & E1 & E2).
  assert (LL : length (map (fun x => Witness (of_Z p x)) (digits lb k (val v))) = length (map Constant (pows (p:=p) lb k)))
    by (rewrite !map_length, digits_length, pows_length; reflexivity).
  apply (ip_core_sound lb) in E1 as (W1 & X1 & O1 & Z1 & L1 & S1); auto.
  apply last_at in E2 as (E2 & A1); auto. subst s1. rename s1' into s1. rewrite map_length, digits_length in *.
  apply bind_inv in H as (u & s2 & E2 & H). apply constrain_equal_spec in E2 as (W2 & X2 & A2 & S2); auto.
  rewrite starts_pows in O1 by lia. subst one.
  apply bind_inv in H as (u1 & s3' & E3 & H). apply bind_inv in H as (u2 & s3 & E4 & H).
  assert (G : iterM lookup_at (map (fun i => (alen s + ip_pos true i)%nat) (seq 0 k)) s2 = Some (u2, s3)).
  { rewrite <- lookups_join by lia. unfold bind. now rewrite E3. }
  clear E3 E4. apply lookups_at_spec in G as (W3 & X3 & A3 & S3); auto.
  apply get_at in H as [-> AO]; auto.
  assert (X02 : ext s s2) by (eapply ext_trans; eauto). assert (X03 : ext s s3) by (eapply ext_trans; eauto).
  split; auto. split; auto. split; auto.
  intros sg HS. apply S3 in HS as [HS HF]. apply S2 in HS as [HS HE].
  destruct (S1 sg HS) as (xs & ys & Fx & Fy & Vx & Vs).
  apply map_const_qsem in Fy. subst ys.
  pose proof (Forall2_len _ _ _ Fx) as Lx. rewrite map_length, digits_length in Lx.
  assert (HB : Forall (fun y => 0 <= val y < 2 ^ Z.of_nat lb) xs).
  { rewrite Forall_forall. intros y Hy. apply In_nth_error in Hy as [i Hi]. rewrite <- (Vx _ _ Hi).
    assert (i < k)%nat by (rewrite Lx; apply nth_error_Some; congruence).
    rewrite Forall_forall in HF. unfold rv. rewrite <- (ext_cl _ _ _ X02). apply HF. apply in_map_iff. exists i. split; auto. apply in_seq. lia. }
  rewrite HE in *. replace (alen s1 - 1)%nat with (alen s + 3 * ip_gates true k)%nat in A1 by lia.
  assert (EA : avs sg acc = dot xs (pows lb (length xs))).
  { rewrite (at_off_avs _ _ _ _ sg X1 A1), Vs by lia. cbn [ip_gates]. replace (S (k - 1)) with k by lia.
    rewrite !firstn_all2; rewrite ?pows_length, <- ?Lx; auto. }
  rewrite dot_pows_val in EA.
  assert (HF' : Forall (fun d => 0 <= d < 2 ^ Z.of_nat lb) (map val xs)) by (clear - HB; induction HB; cbn; constructor; auto).
  pose proof (undigits_bound lb _ HF') as HU. rewrite map_length, <- Lx in HU. set (T := undigits lb (map val xs)) in *.
  exists T. split; [exact HU|]. split; [exact EA|].
  assert (Ho : val (avs sg o) = nth (k - 1) (map val xs) 0).
  { rewrite (at_off_avs _ s (1 + 3 * (k - 2)) _ sg X03). 2:{ replace (alen s + (1 + 3 * (k - 2)))%nat with (alen s + 1 + 3 * (k - 2))%nat by lia. exact AO. }
    replace (1 + 3 * (k - 2))%nat with (ip_pos true (k - 1)). 2:{ destruct (k - 1)%nat eqn:Ek; cbn; lia. }
    destruct (nth_error xs (k - 1)) as [x|] eqn:En; [|apply nth_error_None in En; lia].
    rewrite (Vx _ _ En). symmetry. apply nth_error_nth. now rewrite nth_error_map, En. }
  assert (E3 : map val xs = digits lb k T). { unfold T. rewrite Lx, <- (map_length val xs). now apply digits_unique. }
  rewrite E3 in Ho. rewrite digits_nth in Ho by lia.
  assert (T / 2 ^ Z.of_nat (lb * (k - 1)) < 2 ^ Z.of_nat lb).
  { apply Z.div_lt_upper_bound; [apply pow2_pos|]. rewrite <- pow2_add. replace (lb * (k - 1) + lb)%nat with (lb * k)%nat by nia. lia. }
  rewrite Z.mod_small in Ho; [lia|]. split; auto. apply Z.div_pos; [lia|apply pow2_pos].
Qed.
Lemma rc_limbs_comp (a : AV p) x k : hv a x -> (2 <= k)%nat -> (k <= length (limb_bases (p:=p) lb))%nat -> val x < 2 ^ Z.of_nat (lb * k) ->
  comp (fun rho => av_ok rho a) (rc_limbs a k)
   (fun o => hv o (of_Z p (val x / 2 ^ Z.of_nat (lb * (k - 1))))) (fun rho o => av_ok rho o).
Proof.
  intros Ha Hk HC Hx s W. unfold rc_limbs.
  set (ds := map (of_Z p) (digits lb k (val x))).
  assert (Lds : length ds = k) by (unfold ds; rewrite map_length; apply digits_length).
  assert (Edot : dot ds (pows lb k) = x).
  { unfold ds. rewrite <- (digits_length lb k (val x)) at 2. rewrite dot_pows, undigits_digits.
    rewrite Z.mod_small by (pose proof (val_bounds p x); lia). apply of_Z_val. }
  assert (Ew : map (fun y => Witness (of_Z p y)) (digits lb k (val x)) = map Witness ds) by (unfold ds; now rewrite map_map).
  destruct (ip_core_comp lb (map Witness ds) (map Constant (pows lb k)) ds (pows lb k) s W (map_wit_qh _) (map_const_qh _))
    as (s1 & E1 & W1 & X1 & L1 & Z1 & V1 & V2 & S1); [rewrite !map_length, pows_length; auto|].
  rewrite starts_pows in * by lia. rewrite map_length, Lds in *.
  destruct (last_total s1) as [acc E2]; [lia|]. pose proof (last_at _ _ _ W1 E2) as [_ A2].
  replace (alen s1 - 1)%nat with (alen s + 3 * ip_gates true k)%nat in A2 by lia.
  assert (Hacc : hv acc x).
  { eapply at_off_hv; [exact A2|]. rewrite V2 by lia. do 2 f_equal. cbn [ip_gates]. replace (S (k - 1)) with k by lia.
    rewrite !firstn_all2 by (rewrite ?pows_length; lia). exact Edot. }
  destruct (constrain_equal_total a acc s1 W1) as [s2 E3]; [apply Ha|apply Hacc|].
  pose proof (constrain_equal_spec _ _ _ _ _ W1 E3) as (W2 & X2 & Adv2 & S2).
  assert (BND : forall i, (i < k)%nat -> (alen s + ip_pos true i < alen s2)%nat).
  { intros j Hj. assert (HS : nth_error (advice s2) (alen s + ip_pos true j) <> None) by (rewrite Adv2, V1 by lia; discriminate).
    apply nth_error_Some in HS. exact HS. }
  destruct (lookups_at_total (map (fun i => (alen s + ip_pos true i)%nat) (seq 0 k)) s2 W2) as [s3 G].
  { rewrite Forall_forall. intros i Hi. apply in_map_iff in Hi as (j & <- & Hj). apply in_seq in Hj. apply BND. lia. }
  pose proof (lookups_at_spec _ _ _ _ W2 G) as (W3 & X3 & A3 & S3).
  assert (PO : (alen s + 1 + 3 * (k - 2))%nat = (alen s + ip_pos true (k - 1))%nat) by (destruct (k - 1)%nat eqn:Ek; cbn; lia).
  destruct (ctx_get_abs_total s3 (alen s + ip_pos true (k - 1))) as [o E5].
  { unfold alen at 2. rewrite A3. apply BND. lia. }
  pose proof (get_at _ _ _ _ W3 E5) as [_ AO].
  exists o, s3. split.
  { unfold bind at 1. unfold lift at 1. rewrite (hv_val _ _ Ha). unfold bind at 1, lift at 1. rewrite decompose_fe_correct by lia.
    unfold bind at 1, ctx_len at 1. unfold bind at 1, lift at 1. rewrite limb_bases_slice by assumption. rewrite Ew.
    unfold bind at 1, inner_product, bind at 1. rewrite E1, E2. unfold bind at 1. rewrite E3.
    rewrite <- lookups_join in G by lia. unfold bind in G |- *. destruct (lookup_at (alen s) s2) as [[u s4]|]; [|discriminate].
    rewrite G, PO. exact E5. }
  split; auto. split; [eauto using ext_trans|]. split.
  { eapply at_off_hv; [exact AO|]. rewrite A3, Adv2, V1 by lia. do 2 f_equal. unfold ds.
    assert (E0 : F0 = of_Z p 0) by reflexivity. rewrite E0, map_nth. rewrite digits_nth by lia. f_equal. apply Z.mod_small.
    split; [apply Z.div_pos; [apply val_bounds|apply pow2_pos]|]. apply Z.div_lt_upper_bound; [apply pow2_pos|]. rewrite <- pow2_add.
    replace (lb * (k - 1) + lb)%nat with (lb * k)%nat by nia. lia. }
  intros rho HA HS Oa. pose proof (agree_mono _ _ _ X3 HA) as HA2. pose proof (agree_mono _ _ _ X2 HA2) as HA1.
  assert (HS1 : Sat lb rho s1) by (apply S1; auto using map_wit_qok, map_const_qok).
  assert (Oacc : av_ok rho acc) by (eapply av_in_ok; eauto; eapply at_off_in; eauto).
  assert (HS2 : Sat lb rho s2). { apply S2. split; auto. now rewrite (hv_ok _ _ _ Ha Oa), (hv_ok _ _ _ Hacc Oacc). }
  split; [|apply (av_in_ok s3 o rho); [exact (at_off_in _ _ _ AO)|exact HA]].
  apply S3. split; auto. rewrite Forall_forall. intros i Hi. apply in_map_iff in Hi as (j & <- & Hj). apply in_seq in Hj.
  rewrite (HA2 _ (ATriv (nth j ds F0))) by (rewrite Adv2; apply V1; lia). cbn [aeval].
  unfold ds. assert (E0 : F0 = of_Z p 0) by reflexivity. rewrite E0, map_nth.
  assert (HB : 0 <= nth j (digits lb k (val x)) 0 < 2 ^ Z.of_nat lb).
  { pose proof (digits_bound lb k (val x)) as HF. rewrite Forall_forall in HF. apply HF. apply nth_In. rewrite digits_length. lia. }
  rewrite val_of_Z_small; [exact HB|]. pose proof (pow2_le_p lb). lia.
Qed.

(** the extra constraint on the top limb *)
Definition rc_top (l : AV p) (rem : nat) : M p unit :=
  match Nat.compare rem 1 with
  | Eq => assert_bit l
  | Gt => mult <- lift (nth_error (pow_of_two_table (p:=p)) (lb - rem)) ;;
          check <- mul (Existing l) (Constant mult) ;;
          add_cell_to_lookup check
  | Lt => ret tt
  end.
Lemma rc_top_sound l rem : (rem < lb)%nat -> sound (rc_top l rem) (fun _ => True)
  (fun sg _ => val (avs sg l) < 2 ^ Z.of_nat lb -> val (avs sg l) < 2 ^ Z.of_nat (if Nat.eqb rem 0 then lb else rem)).
Proof.
  intros Hr. unfold rc_top. destruct (Nat.compare_spec rem 1) as [->|H|H].
  - eapply sound_weaken; [now apply assert_bit_sound|auto|]. intros sg u _ HB _. cbn [Nat.eqb]. apply val_bit in HB; auto; apply HB.
  - assert (rem = O) by lia. subst. apply sound_ret; auto.
  - apply sound_lift_bind. intros m Em. apply pow_nth_inv in Em as [_ ->].
    eapply sound_bind; [apply mul_sound|]. intros c _. eapply sound_weaken; [apply sound_add_cell_to_lookup|auto|].
    intros sg u _ HL (x & y & Hx & Hy & Hc) Hlt. cbn in Hx, Hy. subst x y. destruct (Nat.eqb_spec rem 0); [lia|].
    cbv beta in HL. rewrite Hc in HL.
    assert (E : val (avs sg l * of_Z p (2 ^ Z.of_nat (lb - rem)))%F = val (avs sg l) * 2 ^ Z.of_nat (lb - rem)).
    { pose proof (val_bounds p (avs sg l)). pose proof (pow2_pos (lb - rem)). pose proof (pow2_pos lb).
      assert (2 ^ Z.of_nat lb * 2 ^ Z.of_nat (lb - rem) <= Z.pos p) by (rewrite <- pow2_add; apply pow2_le_p; lia).
      assert (2 <= 2 ^ Z.of_nat lb) by (change 2 with (2 ^ Z.of_nat 1) at 1; apply pow2_le; lia).
      assert (B : 2 ^ Z.of_nat (lb - rem) < Z.pos p) by nia. assert (B2 : val (avs sg l) * 2 ^ Z.of_nat (lb - rem) < Z.pos p) by nia.
      rewrite val_mul, val_of_Z. rewrite (Z.mod_small (2 ^ _)) by lia. apply Z.mod_small. nia. }
    rewrite E in HL. assert (E2 : 2 ^ Z.of_nat lb = 2 ^ Z.of_nat (lb - rem) * 2 ^ Z.of_nat rem) by (rewrite <- pow2_add; f_equal; lia).
    pose proof (pow2_pos (lb - rem)). nia.
Qed.
Lemma rc_top_comp l x rem : (rem < lb)%nat -> hv l x -> val x < 2 ^ Z.of_nat (if Nat.eqb rem 0 then lb else rem) ->
  comp (fun rho => av_ok rho l) (rc_top l rem) (fun _ => True) (fun _ _ => True).
Proof.
  intros Hr Hl Hx. unfold rc_top. destruct (Nat.compare_spec rem 1) as [->|H|H].
  - apply (assert_bit_comp lb Hp l x Hl). apply bit_val; auto. cbn [Nat.eqb] in Hx. pose proof (val_bounds p x). lia.
  - apply comp_ret; auto.
  - destruct (Nat.eqb_spec rem 0); [lia|].
    eapply comp_lift_bind; [apply pow_nth; unfold NUM_BITS; lia|].
    eapply comp_bind; [apply mul_comp; [apply qh_existing; exact Hl|apply qh_const]|intros rho Ho; split; [exact Ho|exact I]|].
    intros c Hc. cbv beta in Hc.
    eapply comp_weaken; [apply (comp_add_cell_to_lookup lb c _ Hc)|intros rho Ho; exact (proj2 Ho)|auto|auto].
    pose proof (pow2_pos (lb - rem)). pose proof (pow2_pos rem). pose proof (val_bounds p x).
    assert (2 ^ Z.of_nat lb = 2 ^ Z.of_nat (lb - rem) * 2 ^ Z.of_nat rem) by (rewrite <- pow2_add; f_equal; lia).
    pose proof (pow2_le_p lb ltac:(lia)).
    assert (2 <= 2 ^ Z.of_nat rem) by (change 2 with (2 ^ Z.of_nat 1) at 1; apply pow2_le; lia).
    assert (B : 2 ^ Z.of_nat (lb - rem) < Z.pos p) by nia.
    rewrite val_mul, val_of_Z. rewrite (Z.mod_small (2 ^ _)) by lia. rewrite Z.mod_small; nia.
Qed.

Lemma ceil_len n : (n <= CAPACITY p)%nat -> (ceil_div n lb <= length (limb_bases (p:=p) lb))%nat.
Proof.
  intros H. rewrite limb_bases_spec, map_length, pows_length. destruct n as [|n]; [rewrite ceil_0; lia|].
  destruct (ceil_split (S n) lb) as (K1 & K2 & K3); [lia..|]. set (k := ceil_div (S n) lb) in *. unfold num_bases.
  assert (k - 1 <= CAPACITY p / lb)%nat; [|lia]. apply Nat.div_le_lower_bound; [lia|]. destruct (Nat.eqb (S n mod lb) 0); lia.
Qed.
Lemma _range_check_sound (a : AV p) n : sound (_range_check lb a n) (fun _ => True)
  (fun sg o => val (avs sg a) < 2 ^ Z.of_nat n /\
     ((0 < n <= CAPACITY p)%nat -> val (avs sg o) = val (avs sg a) / 2 ^ Z.of_nat (lb * (ceil_div n lb - 1)))).
Proof.
  unfold _range_check. destruct (Nat.eqb_spec n 0) as [->|Hn].
  - eapply sound_bind; [apply sound_assert_is_const|]. intros [] _. apply sound_ret; auto.
    intros sg H. rewrite H, val_0. split; [cbn; lia|lia].
  - apply sound_assert_bind. intros _. apply sound_assert_bind. intros HL. apply Nat.leb_le in HL.
    destruct (ceil_split n lb) as (K1 & K2 & K3); [lia|lia|]. set (k := ceil_div n lb) in *. set (rem := (n mod lb)%nat) in *.
    eapply (sound_bind lb _ _ (fun _ => True) (fun sg o => exists T, 0 <= T < 2 ^ Z.of_nat (lb * k) /\ avs sg a = of_Z p T /\
       val (avs sg o) = T / 2 ^ Z.of_nat (lb * (k - 1)) /\ val (avs sg o) < 2 ^ Z.of_nat lb)).
    + destruct (Nat.eqb_spec k 1) as [E|E].
      * eapply sound_bind; [apply sound_add_cell_to_lookup|]. intros [] _. apply sound_ret; auto. intros sg H. cbv beta in H.
        exists (val (avs sg a)). rewrite E. rewrite of_Z_val.
        cbn [Nat.sub]. rewrite Nat.mul_0_r, Nat.mul_1_r. change (2 ^ Z.of_nat 0) with 1. rewrite Z.div_1_r. repeat split; lia.
      * apply rc_limbs_sound; lia.
    + intros l _. eapply sound_bind; [apply (rc_top_sound l rem K3)|]. intros [] _. apply sound_ret; auto.
      intros sg HT (T & H1 & H2 & H3 & H4). apply HT in H4.
      assert (TB : T < 2 ^ Z.of_nat n).
      { rewrite K2 at 1. rewrite pow2_add. rewrite H3 in H4. pose proof (pow2_pos (lb * (k - 1))) as HP.
        pose proof (Z_div_mod_eq_full T (2 ^ Z.of_nat (lb * (k - 1)))).
        pose proof (Z.mod_pos_bound T (2 ^ Z.of_nat (lb * (k - 1))) HP). nia. }
      destruct (le_gt_dec n (CAPACITY p)) as [HC|HC].
      * assert (E : val (avs sg a) = T). { rewrite H2. apply val_of_Z_small. pose proof (pow2_le_p n HC). lia. }
        rewrite E. split; auto.
      * split; [|lia]. pose proof (val_bounds p (avs sg a)). pose proof (CAPACITY_bound p) as [_ B].
        assert (2 ^ Z.of_nat (NUM_BITS p) <= 2 ^ Z.of_nat n) by (apply pow2_le; unfold NUM_BITS; lia). lia.
Qed.
Lemma _range_check_comp (a : AV p) x n : hv a x -> (n <= CAPACITY p)%nat -> val x < 2 ^ Z.of_nat n ->
  comp (fun rho => av_ok rho a) (_range_check lb a n)
   (fun o => (0 < n)%nat -> hv o (of_Z p (val x / 2 ^ Z.of_nat (lb * (ceil_div n lb - 1))))) (fun rho o => av_ok rho o).
Proof.
  intros Ha HC Hx. unfold _range_check. destruct (Nat.eqb_spec n 0) as [->|Hn].
  - assert (x = F0). { apply F_eq. rewrite val_0. pose proof (val_bounds p x). cbn in Hx. lia. } subst x.
    eapply comp_bind; [apply (comp_assert_is_const lb a F0 Ha)|auto|]. intros [] _. apply comp_ret; [lia|]. intros rho H; exact (proj1 H).
  - apply comp_assert_bind; [apply Nat.ltb_lt; lia|].
    destruct (ceil_split n lb) as (K1 & K2 & K3); [lia|lia|]. set (k := ceil_div n lb) in *. set (rem := (n mod lb)%nat) in *.
    apply comp_assert_bind; [apply Nat.leb_le, ceil_len; lia|].
    assert (HK : val x < 2 ^ Z.of_nat (lb * k)).
    { eapply Z.lt_le_trans; [exact Hx|]. apply pow2_le. rewrite K2. destruct (Nat.eqb_spec rem 0); nia. }
    assert (HD : val x / 2 ^ Z.of_nat (lb * (k - 1)) < 2 ^ Z.of_nat (if Nat.eqb rem 0 then lb else rem)).
    { apply Z.div_lt_upper_bound; [apply pow2_pos|]. rewrite <- pow2_add, <- K2. exact Hx. }
    assert (HD0 : 0 <= val x / 2 ^ Z.of_nat (lb * (k - 1))) by (apply Z.div_pos; [apply val_bounds|apply pow2_pos]).
    assert (HDp : 2 ^ Z.of_nat (if Nat.eqb rem 0 then lb else rem) <= Z.pos p) by (apply pow2_le_p; destruct (Nat.eqb_spec rem 0); lia).
    eapply (comp_bind lb _ _ _ _ (fun o => hv o (of_Z p (val x / 2 ^ Z.of_nat (lb * (k - 1))))) (fun rho o => av_ok rho o)).
    + instantiate (1 := fun rho => av_ok rho a). destruct (Nat.eqb_spec k 1) as [E|E].
      * eapply comp_bind; [apply (comp_add_cell_to_lookup lb a x Ha)|auto|].
        { rewrite E, Nat.mul_1_r in HK. exact HK. }
        intros [] _. apply comp_ret; [|intros rho H; exact (proj1 H)]. rewrite E. cbn [Nat.sub]. rewrite Nat.mul_0_r.
        change (2 ^ Z.of_nat 0) with 1. rewrite Z.div_1_r, of_Z_val. exact Ha.
      * apply (rc_limbs_comp a x k Ha); auto; [lia|apply ceil_len; lia].
    + auto.
    + intros l Hl. cbv beta in Hl. eapply comp_bind; [apply (rc_top_comp l _ rem K3 Hl)|intros rho H; exact (proj2 H)|].
      { rewrite val_of_Z_small; lia. }
      intros [] _. apply comp_ret; auto. tauto.
Qed.

Lemma range_check_sound (a : AV p) n : sound (range_check lb a n) (fun _ => True)
  (fun sg _ => val (avs sg a) < 2 ^ Z.of_nat n).
Proof.
  unfold range_check. eapply sound_bind; [now apply _range_check_sound|]. intros o _. apply sound_ret; auto. tauto.
Qed.
Lemma range_check_comp (a : AV p) x n : hv a x -> (n <= CAPACITY p)%nat -> val x < 2 ^ Z.of_nat n ->
  comp (fun rho => av_ok rho a) (range_check lb a n) (fun _ => True) (fun _ _ => True).
Proof.
  intros Ha HC Hx. unfold range_check. eapply comp_bind; [now apply (_range_check_comp a x n)|auto|]. intros o _. apply comp_ret; auto.
Qed.
End RangeProofs.
