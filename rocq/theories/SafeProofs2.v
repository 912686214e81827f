(** More proofs about the safe types: completeness of ensure_0_padding, loaders, raw_bytes_to. *)
From Coq Require Import ZArith Lia List Bool Znumtheory Ring.
From Verif Require Import Field Context ContextProofs Spec Logic Utils Gate GateProofs ChainProofs IPProofs BitProofs PowProofs
  Range RangeProofs RangeProofs2 Derived IPComp LagrangeProofs SafeTypes SafeProofs.
Import ListNotations.
Local Open Scope Z_scope.

Section Safe2.
Context {p : positive}.
Notation Fp := (F p).
Hypothesis Hp : prime (Z.pos p).
Variable lb : nat.
Hypothesis Hlb : (1 <= lb < 64)%nat.
Hypothesis Hlb2 : (2 * lb <= CAPACITY p)%nat.
Notation sound := (sound lb).
Notation comp := (comp lb).
Add Ring Fring : (F_ring p) (morphism (F_morph p), constants [Fcst]).

Lemma Forall2_rev' {A B} (R : A -> B -> Prop) l l' : Forall2 R l l' -> Forall2 R (rev l) (rev l').
Proof. induction 1; cbn; auto. apply Forall2_app; auto. Qed.
Lemma qh_existing_l (l : list (AV p)) vs : Forall2 hv l vs -> Forall2 qh (map Existing l) vs.
Proof. induction 1; cbn; constructor; auto using qh_existing. Qed.
Lemma q_ok_existing_l rho (l : list (AV p)) : Forall (av_ok rho) l -> Forall (q_ok rho) (map Existing l).
Proof. induction 1; cbn; constructor; auto. Qed.
Lemma Forall_rev' {A} (P : A -> Prop) l : Forall P l -> Forall P (rev l).
Proof. apply Forall_rev. Qed.

Lemma ensure_0_padding_comp (bytes : list (AV p)) (vs : list Fp) (len : AV p) (L : nat) :
  Forall2 hv bytes vs -> hv len (of_Z p (Z.of_nat L)) -> (L <= length bytes)%nat -> Z.of_nat (length bytes) < Z.pos p ->
  comp (fun rho => Forall (av_ok rho) bytes /\ av_ok rho len) (ensure_0_padding bytes len)
    (fun o => Forall2 hv o (firstn L vs ++ repeat F0 (length bytes - L))) (fun rho o => Forall (av_ok rho) o).
Proof using Hp.
  clear Hlb Hlb2. intros HV HLen HL Hn. unfold ensure_0_padding. pose proof (Forall2_len _ _ _ HV) as LV.
  set (x := of_Z p (Z.of_nat L)) in *. assert (Vx : val x = Z.of_nat L) by (apply val_of_Z_small; lia).
  eapply comp_bind; [apply (sub_comp lb (Existing len) (Constant F1) x F1); auto using qh_const, qh_existing| |].
  { ctau. }
  intros idx Hi. cbv beta in Hi.
  eapply comp_bind; [apply (idx_to_indicator_comp lb Hp (Existing idx) _ (length bytes) (qh_existing _ _ Hi))|ctau|].
  intros ind Hind. cbv beta in Hind.
  eapply comp_bind; [apply (partial_sums_comp lb (map Existing (rev ind)) (rev (idx_ind (x - F1)%F (length bytes))))| |].
  { apply qh_existing_l, Forall2_rev', Hind. }
  { cbv beta. intros rho HH. apply q_ok_existing_l, Forall_rev. tauto. }
  intros mask Hm. cbv beta in Hm. apply Forall2_rev' in Hm. fold (mask_of (idx_ind (x - F1)%F (length bytes))) in Hm.
  eapply comp_weaken; [apply (comp_mapM_hv lb _ (fun rho => Forall (av_ok rho) bytes /\ Forall (av_ok rho) (rev mask)) _ (fun xy => fst xy * snd xy)%F _ _ (Forall2_combine' _ _ _ _ HV _ _ Hm))| | |]; cbv beta; auto.
  - intros [a b] [va vb] Hin [Ha Hb]. cbn [fst snd] in *.
    eapply comp_weaken; [apply (mul_comp lb (Existing a) (Existing b) va vb); auto using qh_existing| |auto|auto].
    intros rho [H1 H2]. unfold qok2. cbn [q_ok]. rewrite Forall_forall in H1, H2. split; eauto using in_combine_l, in_combine_r.
  - intros rho HH. split; [tauto|]. apply Forall_rev. tauto.
  - intros o Ho. destruct bytes as [|b0 bytes].
    { inversion HV; subst. cbn in Ho. inversion Ho; subst. rewrite firstn_nil. constructor. }
    rewrite mask_ind in Ho; auto; [|rewrite Vx; lia|cbn; lia].
    rewrite Vx, Nat2Z.id, LV in Ho. pose proof (mask_mul vs L 0) as K. cbn [Nat.add] in K. rewrite K, <- LV in Ho. exact Ho.
Qed.

(** ** bool and byte *)
Lemma assert_bool_sound (x : AV p) : sound (assert_bool x) (fun o => o = x) (fun sg o => is_bit (avs sg x)).
Proof using Hp.
  clear Hlb Hlb2. eapply sound_bind; [apply (assert_bit_sound lb Hp)|]. intros [] _. apply sound_ret; auto.
Qed.
Lemma load_bool_sound b : sound (load_bool (p:=p) b) (fun _ => True) (fun sg o => is_bit (avs sg o)).
Proof using Hp.
  clear Hlb Hlb2. eapply sound_bind; [apply sound_load_witness|]. intros x _. eapply sound_weaken; [apply assert_bool_sound|auto|].
  intros sg o -> H _. auto.
Qed.
Lemma load_bool_comp b : comp (fun _ => True) (load_bool (p:=p) b) (fun o => hv o (fbool b)) (fun rho o => av_ok rho o).
Proof using Hp.
  clear Hlb Hlb2. eapply comp_bind; [apply comp_load_witness with (H := fun _ => True)|intros; exact I|]. intros x Hx. cbv beta in Hx.
  assert (E : of_Z p (if b then 1 else 0) = (fbool b : Fp)) by (destruct b; reflexivity). rewrite E in Hx.
  eapply comp_bind; [apply (assert_bit_comp lb Hp x (fbool b) Hx)|ctau|].
  { destruct b; [right|left]; reflexivity. }
  intros [] _. apply comp_ret; auto. tauto.
Qed.
Lemma assert_byte_sound (x : AV p) : sound (assert_byte lb x) (fun o => o = x) (fun sg o => 0 <= val (avs sg x) < 256).
Proof using Hp Hlb Hlb2.
  eapply sound_bind; [apply (range_check_sound lb Hp Hlb Hlb2)|]. intros [] _. apply sound_ret; auto.
  intros sg H. pose proof (val_bounds p (avs sg x)). change (2 ^ Z.of_nat BITS_PER_BYTE) with 256 in H. lia.
Qed.
Lemma assert_byte_comp (x : AV p) v : hv x v -> val v < 256 -> (8 <= CAPACITY p)%nat ->
  comp (fun rho => av_ok rho x) (assert_byte lb x) (fun o => o = x) (fun rho o => av_ok rho o).
Proof using Hp Hlb Hlb2.
  intros Hv Hl HC. eapply comp_bind; [apply (range_check_comp lb Hp Hlb Hlb2 x v 8 Hv HC)|auto|].
  { exact Hl. }
  intros [] _. apply comp_ret; auto. tauto.
Qed.
Lemma load_byte_sound b : sound (load_byte (p:=p) lb b) (fun _ => True) (fun sg o => 0 <= val (avs sg o) < 256).
Proof using Hp Hlb Hlb2.
  eapply sound_bind; [apply sound_load_witness|]. intros x _. eapply sound_weaken; [apply assert_byte_sound|auto|].
  intros sg o -> H _. auto.
Qed.
Lemma load_byte_comp b : 0 <= b < 256 -> (8 <= CAPACITY p)%nat ->
  comp (fun _ => True) (load_byte lb b) (fun o => hv o (of_Z p b)) (fun rho o => av_ok rho o).
Proof using Hp Hlb Hlb2.
  intros Hb HC. eapply comp_bind; [apply comp_load_witness with (H := fun _ => True)|intros; exact I|]. intros x Hx. cbv beta in Hx.
  eapply comp_weaken; [apply (assert_byte_comp x (of_Z p b) Hx)|ctau| |auto]; auto.
  - rewrite val_of_Z. pose proof (Z.mod_le b (Z.pos p)). lia.
  - intros o ->. auto.
Qed.

Lemma map_assert_byte_sound (l : list (AV p)) : sound (mapM (assert_byte lb) l) (fun o => o = l) (fun sg o => Forall (fun x => 0 <= val (avs sg x) < 256) l).
Proof using Hp Hlb Hlb2.
  eapply sound_weaken; [apply (sound_mapM lb (assert_byte lb) (fun x o => o = x) (fun sg x o => 0 <= val (avs sg x) < 256)); intros; apply assert_byte_sound| |].
  - cbv beta. intros o H. clear - H. induction H; congruence.
  - cbv beta. intros sg o _ H. clear - H. induction H; constructor; auto.
Qed.
Lemma map_assert_byte_comp (l : list (AV p)) (vs : list Fp) : Forall2 hv l vs -> Forall (fun v => val v < 256) vs -> (8 <= CAPACITY p)%nat ->
  comp (fun rho => Forall (av_ok rho) l) (mapM (assert_byte lb) l) (fun o => o = l) (fun rho o => True).
Proof using Hp Hlb Hlb2.
  intros HV HB HC.
  assert (X : forall x, In x l -> comp (fun rho => Forall (av_ok rho) l) (assert_byte lb x) (fun o => o = x) (fun rho o => True)).
  { intros x Hx. assert (exists v, hv x v /\ val v < 256) as (v & Hv & Hlt).
    { clear - HV HB Hx. induction HV; [destruct Hx|]. inversion HB; subst. destruct Hx as [->|Hx]; eauto. }
    eapply comp_weaken; [apply (assert_byte_comp x v); auto| |auto|auto]. intros rho HF. rewrite Forall_forall in HF. auto. }
  eapply comp_weaken; [apply (comp_mapM lb (assert_byte lb) (fun x o => o = x) (fun _ _ => True) l _ X)|auto| |auto].
  cbv beta. intros o H. clear - H. induction H; congruence.
Qed.

Lemma raw_to_fix_len_sound (l : list (AV p)) n : sound (raw_to_fix_len_bytes_vec lb l n) (fun o => o = l /\ length l = n)
  (fun sg o => Forall (fun x => 0 <= val (avs sg x) < 256) l).
Proof using Hp Hlb Hlb2.
  eapply sound_bind; [apply map_assert_byte_sound|]. intros o ->. eapply sound_bind; [apply sound_assert|]. intros [] E.
  apply Nat.eqb_eq in E. apply sound_ret; auto.
Qed.
Lemma raw_to_fix_len_comp (l : list (AV p)) (vs : list Fp) : Forall2 hv l vs -> Forall (fun v => val v < 256) vs -> (8 <= CAPACITY p)%nat ->
  comp (fun rho => Forall (av_ok rho) l) (raw_to_fix_len_bytes_vec lb l (length l)) (fun o => o = l) (fun rho o => True).
Proof using Hp Hlb Hlb2.
  intros HV HB HC. eapply comp_bind; [now apply (map_assert_byte_comp l vs)|auto|]. intros o ->.
  eapply comp_bind; [apply comp_assert with (H := fun _ => True); apply Nat.eqb_refl|intros; exact I|]. intros [] _. apply comp_ret; auto.
Qed.

Lemma raw_to_var_len_sound (l : list (AV p)) (len : AV p) n : Z.of_nat n + 1 < Z.pos p -> 2 ^ Z.of_nat (S (pad_bits lb (bits (Z.of_nat n + 1)))) <= Z.pos p ->
  sound (raw_to_var_len_bytes_vec lb l len n) (fun o => o = (l, len) /\ length l = n)
  (fun sg o => Forall (fun x => 0 <= val (avs sg x) < 256) l /\ val (avs sg len) <= Z.of_nat n).
Proof using Hp Hlb Hlb2.
  intros Hn Hpad. eapply sound_bind; [apply sound_assert|]. intros [] E. cbv beta in E. apply Z.ltb_lt in E.
  eapply sound_bind; [apply (check_less_than_safe_sound lb Hp Hlb Hlb2); auto; lia|]. intros [] _.
  eapply sound_bind; [apply map_assert_byte_sound|]. intros o ->.
  eapply sound_bind; [apply sound_lift|]. intros v _. eapply sound_bind; [apply sound_assert|]. intros [] _.
  eapply sound_bind; [apply sound_assert|]. intros [] E2. apply Nat.eqb_eq in E2.
  apply sound_ret; auto. intros sg _ _ _ HB HL _. split; auto. lia.
Qed.
Lemma raw_to_var_len_comp (l : list (AV p)) (vs : list Fp) (len : AV p) L : Forall2 hv l vs -> Forall (fun v => val v < 256) vs -> (8 <= CAPACITY p)%nat ->
  hv len (of_Z p (Z.of_nat L)) -> (L <= length l)%nat -> Z.of_nat (length l) + 1 < 2 ^ 64 -> Z.of_nat (length l) + 1 < Z.pos p ->
  (pad_bits lb (bits (Z.of_nat (length l) + 1)) <= CAPACITY p)%nat ->
  comp (fun rho => Forall (av_ok rho) l /\ av_ok rho len) (raw_to_var_len_bytes_vec lb l len (length l)) (fun o => o = (l, len)) (fun rho o => True).
Proof using Hp Hlb Hlb2.
  intros HV HB HC HLen HL Hn64 Hn Hpad.
  eapply comp_bind; [apply comp_assert with (H := fun _ => True); now apply Z.ltb_lt|intros; exact I|]. intros [] _.
  eapply comp_bind; [apply (check_less_than_safe_comp lb Hp Hlb Hlb2 len (Z.of_nat (length l) + 1) _ HLen); auto; [lia|]|ctau|].
  { rewrite val_of_Z_small by lia. lia. }
  intros [] _. eapply comp_bind; [apply (map_assert_byte_comp l vs HV HB HC)|ctau|]. intros o ->.
  eapply comp_bind; [apply comp_lift with (H := fun _ => True); apply (hv_val _ _ HLen)|intros; exact I|]. intros v ->.
  eapply comp_bind; [apply comp_assert with (H := fun _ => True)|intros; exact I|].
  { apply Z.leb_le. rewrite !val_of_Z_small by lia. lia. }
  intros [] _. eapply comp_bind; [apply comp_assert with (H := fun _ => True); apply Nat.eqb_refl|intros; exact I|]. intros [] _. apply comp_ret; auto.
Qed.

(** ** raw_bytes_to *)
Lemma add_bytes_sound (l : list (AV p)) : forall b, sound (add_bytes_constraints lb l b) (fun _ => True)
  (fun sg _ => Forall (fun x => 0 <= val (avs sg x) < 256) l /\ undigits 8 (map (fun x => val (avs sg x)) l) < 2 ^ Z.of_nat b).
Proof using Hp Hlb Hlb2.
  induction l as [|x l IH]; intros b; cbn [add_bytes_constraints].
  - apply sound_ret; auto. intros sg. split; auto. cbn [map undigits]. apply pow2_pos.
  - eapply sound_bind; [apply (range_check_sound lb Hp Hlb Hlb2)|]. intros [] _.
    eapply sound_weaken; [apply IH|auto|]. intros sg [] _ [H1 H2] H3. cbv beta in H3. pose proof (val_bounds p (avs sg x)) as HX.
    unfold BITS_PER_BYTE in *. cbn [map undigits]. change (2 ^ Z.of_nat 8) with 256.
    assert (U : 0 <= undigits 8 (map (fun x => val (avs sg x)) l)).
    { apply undigits_bound. rewrite Forall_map. exact H1. }
    destruct (Nat.le_ge_cases 8 b) as [Hb|Hb].
    + rewrite (Nat.min_r b 8) in * by lia. change (2 ^ Z.of_nat 8) with 256 in H3. split; [constructor; auto; lia|].
      replace b with (8 + (b - 8))%nat by lia. rewrite pow2_add. change (2 ^ Z.of_nat 8) with 256. lia.
    + rewrite (Nat.min_l b 8) in * by lia. rewrite Nat.sub_diag in H2. change (2 ^ Z.of_nat 0) with 1 in H2.
      pose proof (pow2_le b 8 Hb) as HB8. change (2 ^ Z.of_nat 8) with 256 in HB8. split; [constructor; auto; lia|]. lia.
Qed.
Lemma add_bytes_comp (l : list (AV p)) : forall (vs : list Fp) b, Forall2 hv l vs -> Forall (fun v => val v < 256) vs -> (8 <= CAPACITY p)%nat ->
  undigits 8 (map val vs) < 2 ^ Z.of_nat b ->
  comp (fun rho => Forall (av_ok rho) l) (add_bytes_constraints lb l b) (fun _ => True) (fun _ _ => True).
Proof using Hp Hlb Hlb2.
  induction l as [|x l IH]; intros vs b HV HB HC HU; inversion HV; subst; cbn [add_bytes_constraints].
  - apply comp_ret; auto.
  - rename y into v, l' into vs'. inversion HB; subst. cbn [map undigits] in HU. change (2 ^ Z.of_nat 8) with 256 in HU.
    pose proof (val_bounds p v). assert (U : 0 <= undigits 8 (map val vs')).
    { apply undigits_bound. rewrite Forall_map. eapply Forall_impl; [|eassumption]. intros a Ha. pose proof (val_bounds p a). change (2 ^ Z.of_nat 8) with 256. cbv beta in Ha. lia. }
    unfold BITS_PER_BYTE.
    assert (K : val v < 2 ^ Z.of_nat (Nat.min b 8) /\ undigits 8 (map val vs') < 2 ^ Z.of_nat (b - Nat.min b 8)).
    { destruct (Nat.le_ge_cases 8 b) as [Hb|Hb].
      - rewrite (Nat.min_r b 8) by lia. change (2 ^ Z.of_nat 8) with 256. split; [lia|].
        replace b with (8 + (b - 8))%nat in HU by lia. rewrite pow2_add in HU. change (2 ^ Z.of_nat 8) with 256 in HU. lia.
      - rewrite (Nat.min_l b 8) by lia. split; [lia|]. rewrite Nat.sub_diag. change (2 ^ Z.of_nat 0) with 1.
        pose proof (pow2_le b 8 Hb) as HB8. change (2 ^ Z.of_nat 8) with 256 in HB8. lia. }
    destruct K as [K1 K2].
    eapply comp_bind; [apply (range_check_comp lb Hp Hlb Hlb2 x v _ ltac:(eassumption)); [lia|exact K1]| |].
    { intros rho HF. now inversion HF. }
    intros [] _. eapply comp_weaken; [apply (IH vs' _ ltac:(assumption) ltac:(assumption) HC K2)| |auto|auto].
    cbv beta. intros rho [HF _]. now inversion HF.
Qed.

Lemma sound_struct {A} (m : M p A) P Q (P' : A -> Prop) : sound m P Q -> (forall s a s', m s = Some (a, s') -> P' a) -> sound m (fun a => P a /\ P' a) Q.
Proof. clear. intros H H' s a s' W E. destruct (H _ _ _ W E) as (A1 & A2 & A3 & A4). eauto 10. Qed.
(** what every satisfying assignment guarantees, for any type *)
Lemma raw_bytes_to_inputs_sound bpe tb (l : list (AV p)) : sound (raw_bytes_to lb bpe tb l)
  (fun o => length o = VALUE_LENGTH bpe tb /\ (tb = 1%nat \/ bits_per_ele bpe tb = 8%nat -> o = l))
  (fun sg o => Forall (fun x => 0 <= val (avs sg x) < 256) l /\ undigits 8 (map (fun x => val (avs sg x)) l) < 2 ^ Z.of_nat tb).
Proof using Hp Hlb Hlb2.
  unfold raw_bytes_to. eapply sound_bind; [apply sound_assert|]. intros [] E0. eapply sound_bind; [apply sound_assert|]. intros [] E1.
  eapply sound_bind; [apply add_bytes_sound|]. intros [] _.
  destruct (Nat.eqb tb 1 || Nat.eqb (bits_per_ele bpe tb) BITS_PER_BYTE)%bool eqn:EB.
  - eapply sound_bind; [apply sound_assert|]. intros [] E. cbv beta in E. apply Nat.eqb_eq in E. apply sound_ret; auto.
  - apply orb_false_iff in EB as [EB1 EB2]. apply Nat.eqb_neq in EB1, EB2.
    eapply sound_bind.
    { apply sound_struct with (P := fun _ => True) (Q := fun _ _ => True) (P' := fun o => length o = length (seq 0 bpe)); [|intros; eapply mapM_len'; eassumption].
      eapply sound_weaken; [eapply sound_mapM with (P := fun _ _ => True) (Q := fun _ _ _ => True)|auto|auto]. intros i Hi. eapply sound_weaken; [apply sound_lift|auto|auto]. }
    intros base [_ LB]. cbv beta in LB. rewrite seq_length in LB. eapply sound_bind.
    { eapply sound_mapM with (P := fun _ _ => True) (Q := fun _ _ _ => True). intros c Hc. eapply sound_weaken; [apply inner_product_sound|auto|auto].
      apply in_map_iff in Hc as (i & <- & _). rewrite !map_length, !firstn_length. lia. }
    intros value _. eapply sound_bind; [apply sound_assert|]. intros [] E. cbv beta in E. apply Nat.eqb_eq in E.
    apply sound_ret; auto. split; auto. unfold BITS_PER_BYTE in EB2. tauto.
Qed.

Lemma chunks_map {A B} (f : A -> B) n l : chunks n (map f l) = map (map f) (chunks n l).
Proof. clear. unfold chunks. rewrite map_length, map_map. apply map_ext. intros i. now rewrite skipn_map, firstn_map. Qed.
Lemma chunks_len {A} n (l : list A) : length (chunks n l) = ceil_div (length l) n.
Proof. clear. unfold chunks. now rewrite map_length, seq_length. Qed.
Lemma Forall2_firstn' {A B} (R : A -> B -> Prop) l l' : Forall2 R l l' -> forall n, Forall2 R (firstn n l) (firstn n l').
Proof. induction 1; intros [|n]; cbn; auto. Qed.
Lemma Forall2_skipn' {A B} (R : A -> B -> Prop) l l' : Forall2 R l l' -> forall n, Forall2 R (skipn n l) (skipn n l').
Proof. induction 1; intros [|n]; cbn; auto. Qed.
Lemma chunks_Forall2 {A B} (R : A -> B -> Prop) n l l' : Forall2 R l l' -> Forall2 (Forall2 R) (chunks n l) (chunks n l').
Proof.
  clear. intros H. unfold chunks. rewrite (Forall2_len _ _ _ H). induction (seq 0 _); cbn; constructor; auto.
  now apply Forall2_firstn', Forall2_skipn'.
Qed.
Lemma Forall_skipn' {A} (P : A -> Prop) n l : Forall P l -> Forall P (skipn n l).
Proof. intros H. revert n. induction H; intros [|n]; cbn; auto. Qed.

Lemma value_length_ok bpe tb n : (0 < bpe)%nat -> (0 < tb)%nat -> (n * 8 = Nat.max tb 8)%nat -> ceil_div n bpe = VALUE_LENGTH bpe tb.
Proof.
  clear. intros H0 Ht Hn. unfold ceil_div, VALUE_LENGTH, BITS_PER_BYTE.
  destruct (Nat.le_ge_cases 8 tb) as [H|H].
  - replace tb with (n * 8)%nat by lia.
    
    apply Nat.div_unique with (r := ((8 * ((n + bpe - 1) mod bpe)) + 7)%nat).
    + pose proof (Nat.mod_upper_bound (n + bpe - 1) bpe ltac:(lia)). lia.
    + pose proof (Nat.div_mod (n + bpe - 1) bpe ltac:(lia)) as E. set (q := ((n + bpe - 1) / bpe)%nat) in *. set (r := ((n + bpe - 1) mod bpe)%nat) in *. nia.
  - assert (n = 1%nat) by lia. subst n. replace (1 + bpe - 1)%nat with bpe by lia. rewrite Nat.div_same by lia.
    apply Nat.div_unique with (r := (tb - 1)%nat); lia.
Qed.

Definition raw_bytes_spec (bpe tb : nat) (vs : list Fp) : list Fp :=
  if (Nat.eqb tb 1 || Nat.eqb (bits_per_ele bpe tb) 8)%bool then vs
  else map (fun c => of_Z p (undigits 8 (map val c))) (chunks bpe vs).

Lemma raw_bytes_to_comp bpe tb (l : list (AV p)) (vs : list Fp) : Forall2 hv l vs -> Forall (fun v => val v < 256) vs -> (8 <= CAPACITY p)%nat ->
  (0 < bpe)%nat -> (0 < tb)%nat -> (length l * 8 = Nat.max tb 8)%nat -> (8 * bpe <= CAPACITY p)%nat ->
  undigits 8 (map val vs) < 2 ^ Z.of_nat tb ->
  comp (fun rho => Forall (av_ok rho) l) (raw_bytes_to lb bpe tb l) (fun o => Forall2 hv o (raw_bytes_spec bpe tb vs)) (fun rho o => Forall (av_ok rho) o).
Proof using Hp Hlb Hlb2.
  intros HV HB HC H0 Ht HL Hbpe HU. unfold raw_bytes_to, raw_bytes_spec.
  eapply comp_bind; [apply comp_assert with (H := fun _ => True); now apply Nat.ltb_lt|intros; exact I|]. intros [] _.
  eapply comp_bind; [apply comp_assert with (H := fun _ => True); now apply Nat.eqb_eq|intros; exact I|]. intros [] _.
  eapply comp_bind; [apply (add_bytes_comp l vs tb HV HB HC HU)|ctau|]. intros [] _.
  unfold BITS_PER_BYTE. destruct (Nat.eqb tb 1 || Nat.eqb (bits_per_ele bpe tb) 8)%bool eqn:EB.
  - eapply comp_bind; [apply comp_assert with (H := fun _ => True)|intros; exact I|].
    { apply Nat.eqb_eq. apply orb_true_iff in EB. rewrite !Nat.eqb_eq in EB. unfold bits_per_ele, BITS_PER_BYTE in EB.
      rewrite <- (value_length_ok bpe tb (length l)) by auto. unfold ceil_div.
      destruct EB as [->|EB].
      - assert (length l = 1%nat) as -> by lia. replace (1 + bpe - 1)%nat with bpe by lia. now rewrite Nat.div_same by lia.
      - destruct (Nat.eq_dec bpe 1) as [->|Hb1].
        + rewrite Nat.add_sub. now rewrite Nat.div_1_r.
        + assert (tb = 8%nat) by lia. assert (length l = 1%nat) as -> by lia. replace (1 + bpe - 1)%nat with bpe by lia. now rewrite Nat.div_same by lia. }
    intros [] _. apply comp_ret; auto. tauto.
  - eapply comp_bind with (H1 := fun _ => True) (P1 := fun base => base = pows 8 bpe) (Q1 := fun _ _ => True); [|intros; exact I|].
    { intros s W. exists (pows 8 bpe), s. split; [|auto 10 using ext_refl]. unfold byte_base, pows. apply mapM_pure.
      intros i Hi. apply in_seq in Hi. unfold lift, BITS_PER_BYTE. rewrite (pow_nth Hp) by (unfold NUM_BITS; lia). do 3 f_equal. f_equal. f_equal. lia. }
    intros base ->.
    eapply comp_bind; [apply (comp_mapM_hv lb _ (fun rho => Forall (av_ok rho) l) _ (fun c => of_Z p (undigits 8 (map val c))) _ _ (chunks_Forall2 _ bpe _ _ HV))| |].
    + intros c vc Hin Hc. pose proof (Forall2_len _ _ _ Hc) as Lc.
      assert (Lb : (length c <= bpe)%nat). { apply in_map_iff in Hin as (i & <- & _). rewrite firstn_length. lia. }
      assert (Eb : firstn (length c) (pows (p:=p) 8 bpe) = pows 8 (length c)) by (unfold pows; now rewrite firstn_map, firstn_seq).
      rewrite Eb. rewrite <- dot_pows_val, <- Lc.
      eapply comp_weaken; [apply (inner_product_comp lb (map Existing c) (map Witness (pows 8 (length c))) vc (pows 8 (length c)))| |auto|auto].
      * now apply qh_existing_l.
      * clear. induction (pows 8 (length c)); cbn; constructor; auto using qh_witness.
      * rewrite !map_length, pows_length. reflexivity.
      * intros rho HF. split.
        -- apply q_ok_existing_l. apply in_map_iff in Hin as (i & <- & _). now apply Forall_firstn', Forall_skipn'.
        -- clear. induction (pows 8 (length c)); cbn; constructor; cbn; auto.
    + ctau.
    + intros value HVal. cbv beta in HVal.
      eapply comp_bind; [apply comp_assert with (H := fun _ => True)|intros; exact I|].
      { apply Nat.eqb_eq. rewrite (Forall2_len _ _ _ HVal), map_length, chunks_len, <- (Forall2_len _ _ _ HV). now apply value_length_ok. }
      intros [] _. apply comp_ret; auto. tauto.
Qed.
End Safe2.
