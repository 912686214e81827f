(** Proofs about the safe types (SafeTypes.v). *)
From Coq Require Import ZArith Lia List Bool Znumtheory Ring.
From Verif Require Import Field Context ContextProofs Spec Logic Utils Gate GateProofs ChainProofs IPProofs BitProofs PowProofs
  Range RangeProofs RangeProofs2 Derived IPComp LagrangeProofs SafeTypes.
Import ListNotations.
Local Open Scope Z_scope.

Lemma nth_error_firstn' {A} n (l : list A) : forall i, (i < n)%nat -> nth_error (firstn n l) i = nth_error l i.
Proof. revert l. induction n as [|n IH]; intros l i Hi; [lia|]. destruct l as [|x l]; cbn; auto. destruct i as [|i]; cbn; auto. apply IH. lia. Qed.

Lemma map_repeat' {A B} (f : A -> B) x n : map f (repeat x n) = repeat (f x) n.
Proof. induction n; cbn; congruence. Qed.
Lemma Forall_firstn' {A} (P : A -> Prop) n l : Forall P l -> Forall P (firstn n l).
Proof. intros H. revert n. induction H; intros [|n]; cbn; auto. Qed.
(** shift right by [k], filling with zeros, keeping the length *)
Definition shr {p} (k : nat) (l : list (F p)) : list (F p) := firstn (length l) (repeat F0 k ++ l).
Lemma shr_len {p} k (l : list (F p)) : length (shr k l) = length l.
Proof. unfold shr. rewrite firstn_length, app_length, repeat_length. lia. Qed.
Lemma firstn_app_firstn {A} n (a b : list A) : firstn n (a ++ firstn n b) = firstn n (a ++ b).
Proof.
  rewrite !firstn_app, firstn_firstn. f_equal. f_equal. lia.
Qed.
Lemma shr_shr {p} j k (l : list (F p)) : shr j (shr k l) = shr (k + j) l.
Proof.
  unfold shr at 1. rewrite shr_len. unfold shr. rewrite firstn_app_firstn, app_assoc, <- repeat_app. now rewrite Nat.add_comm.
Qed.
Lemma shr_0 {p} (l : list (F p)) : shr 0 l = l.
Proof. unfold shr. cbn. apply firstn_all. Qed.
Lemma shr_nth {p} k (l : list (F p)) j : (j < length l)%nat ->
  nth_error (shr k l) j = Some (if (k <=? j)%nat then nth (j - k) l F0 else F0).
Proof.
  intros Hj. unfold shr. rewrite nth_error_firstn' by lia.
  destruct (Nat.leb_spec k j) as [H|H].
  - rewrite nth_error_app2; rewrite repeat_length; auto. apply nth_error_nth'. lia.
  - rewrite nth_error_app1 by (rewrite repeat_length; auto). now apply nth_error_repeat.
Qed.
Lemma shr_final {p} (arr : list (F p)) x n L : (L <= length arr)%nat -> (length arr <= n)%nat ->
  shr (n - L) (firstn n arr ++ repeat x (n - length arr)) = repeat F0 (n - L) ++ firstn L arr.
Proof.
  intros H1 H2. unfold shr. rewrite app_length, firstn_length, repeat_length.
  replace (Nat.min n (length arr) + (n - length arr))%nat with n by lia.
  rewrite firstn_app, repeat_length. rewrite (firstn_all2 (repeat F0 (n - L))) by (rewrite repeat_length; lia).
  f_equal. replace (n - (n - L))%nat with L by lia. rewrite firstn_app, firstn_length, firstn_firstn.
  replace (Nat.min L n) with L by lia. replace (L - Nat.min n (length arr))%nat with 0%nat by lia. cbn. apply app_nil_r.
Qed.
Lemma undigits_snoc b l x : undigits b (l ++ [x]) = undigits b l + 2 ^ Z.of_nat (b * length l) * x.
Proof.
  induction l as [|y l IH]; cbn [undigits app length].
  - rewrite Nat.mul_0_r. change (2 ^ Z.of_nat 0) with 1. ring.
  - rewrite IH. replace (b * S (length l))%nat with (b + b * length l)%nat by lia. rewrite pow2_add. ring.
Qed.

Section Safe.
Context {p : positive}.
Notation Fp := (F p).
Hypothesis Hp : prime (Z.pos p).
Variable lb : nat.
Notation sound := (sound lb).
Notation comp := (comp lb).
Add Ring Fring : (F_ring p) (morphism (F_morph p), constants [Fcst]).

Lemma comp_mapM_hv {A B} (f : A -> M p (AV p)) (H : (cell -> Fp) -> Prop) (R : A -> B -> Prop) (g : B -> Fp) l vs :
  Forall2 R l vs -> (forall x v, In x l -> R x v -> comp H (f x) (fun y => hv y (g v)) (fun rho y => av_ok rho y)) ->
  comp H (mapM f l) (fun ys => Forall2 hv ys (map g vs)) (fun rho ys => Forall (av_ok rho) ys).
Proof.
  intros HR HF. assert (HF' : forall x, In x l -> comp H (f x) (fun y => forall v, R x v -> hv y (g v)) (fun rho y => av_ok rho y)).
  { intros x Hx. assert (exists v, R x v) as [v0 Hv0].
    { clear HF. induction HR; [destruct Hx|]. destruct Hx as [->|Hx]; eauto. }
    (* the witness does not depend on [v] *)
    intros s W. destruct (HF x v0 Hx Hv0 s W) as (a & s' & E & W' & X & PA & K). exists a, s'.
    do 3 (split; auto). split; auto. intros v Hv. destruct (HF x v Hx Hv s W) as (a2 & s2 & E2 & _ & _ & PA2 & _). congruence. }
  eapply comp_weaken; [apply (comp_mapM lb f (fun x y => forall v, R x v -> hv y (g v)) (fun rho y => av_ok rho y) l H HF')|auto| |auto].
  intros ys HY. clear HF HF'. revert vs HR. induction HY as [|x y l ys Hy HY IH]; intros vs HR; inversion HR; subst; cbn; constructor; auto.
Qed.

Lemma mapM_pure {A B} (f : A -> M p B) (g : A -> B) l s : (forall x, In x l -> f x s = Some (g x, s)) -> mapM f l s = Some (map g l, s).
Proof.
  induction l as [|x l IH]; intros HF; cbn [mapM map]; auto. unfold bind. rewrite (HF x) by now left.
  rewrite IH by (intros; apply HF; now right). reflexivity.
Qed.

(** ** left_pad_var_array_to_fixed *)
Definition shl_cells (d : AV p) (k : nat) (padded : list (AV p)) (n : nat) : list (qcell p) :=
  map (fun j => if Nat.leb k j then Existing (nth (j - k) padded d) else Constant F0) (seq 0 n).
Lemma shifted_eq d k padded n s : (n <= length padded)%nat -> shifted k padded n s = Some (shl_cells d k padded n, s).
Proof.
  intros HL. unfold shifted, shl_cells. apply mapM_pure. intros j Hj. apply in_seq in Hj.
  destruct (Nat.leb k j); auto. unfold bind, lift. rewrite (nth_error_nth' padded d) by lia. reflexivity.
Qed.
Lemma shl_pin d k padded n : Forall (pin (p:=p)) (shl_cells d k padded n).
Proof. unfold shl_cells. apply Forall_forall. intros x Hx. apply in_map_iff in Hx as (j & <- & _). destruct (Nat.leb k j); cbn; auto. Qed.
Lemma nth_ext_err {A} (l l' : list A) : length l = length l' -> (forall i, (i < length l)%nat -> nth_error l i = nth_error l' i) -> l = l'.
Proof.
  revert l'. induction l as [|x l IH]; intros [|y l'] HL HN; cbn in *; auto; try discriminate.
  pose proof (HN 0%nat ltac:(lia)) as E. cbn in E. injection E as <-. f_equal. apply IH; [lia|]. intros i Hi. apply (HN (S i)). lia.
Qed.
Lemma shl_val sg d k padded : map (qval sg) (shl_cells d k padded (length padded)) = shr k (map (avs sg) padded).
Proof.
  apply nth_ext_err.
  - unfold shl_cells. rewrite !map_length, seq_length, shr_len, map_length. auto.
  - intros i Hi. unfold shl_cells in Hi. rewrite !map_length, seq_length in Hi.
    rewrite shr_nth by (now rewrite map_length). unfold shl_cells. rewrite map_map.
    rewrite nth_error_map. rewrite (nth_error_nth' _ 0%nat) by (rewrite seq_length; auto). rewrite seq_nth by auto. cbn.
    destruct (Nat.leb_spec k i) as [H|H]; cbn; auto. rewrite (nth_indep _ F0 (avs sg d)) by (rewrite map_length; lia).
    now rewrite map_nth.
Qed.

Lemma select_bit_list (a b : list Fp) (z : Fp) : length a = length b -> is_bit z ->
  map (fun xy => (snd xy - fst xy) * z + fst xy)%F (combine a b) = if Feqb z F1 then b else a.
Proof.
  intros HL HB. revert b HL. induction a as [|x a IH]; intros [|y b] HL; try discriminate; cbn [combine map].
  - destruct (Feqb z F1); auto.
  - cbn [fst snd]. rewrite IH by (cbn in HL; lia). destruct HB as [->| ->].
    + destruct (Feqb (F0 : Fp) F1) eqn:E. { apply Feqb_eq in E. exfalso. now apply (F1_neq_0 _ Hp). }
      f_equal. ring.
    + destruct (Feqb (F1 : Fp) F1) eqn:E; [|now apply Feqb_neq in E]. f_equal. ring.
Qed.

Lemma pad_step_sound n (padded : list (AV p)) ib : length padded = n ->
  sound (pad_step n padded ib) (fun o => length o = n)
    (fun sg o => is_bit (avs sg (snd ib)) ->
       map (avs sg) o = shr (2 ^ fst ib * Z.to_nat (val (avs sg (snd ib)))) (map (avs sg) padded)).
Proof.
  intros HL. unfold pad_step. destruct padded as [|d padded].
  { cbn in HL. subst n. cbn [shifted seq mapM combine]. eapply sound_bind; [apply sound_ret with (P := fun l : list (qcell p) => l = []) (Q := fun _ _ => True); auto|].
    intros l ->. cbn [combine mapM]. apply sound_ret; auto. }
  set (pd := d :: padded) in *.
  eapply (sound_bind lb _ _ (fun l => l = shl_cells d (2 ^ fst ib) pd n) (fun _ _ => True)).
  { intros s a s' W E. rewrite (shifted_eq d) in E by lia. injection E as <- <-. auto using ext_refl. }
  intros l ->. assert (LS : length (shl_cells d (2 ^ fst ib) pd n) = n) by (unfold shl_cells; now rewrite map_length, seq_length).
  eapply sound_weaken; [apply (sound_mapM lb _ (fun _ _ => True) (fun sg ns o => avs sg o = ((qval sg (snd ns) - avs sg (fst ns)) * avs sg (snd ib) + avs sg (fst ns))%F))| |].
  - intros [x y] Hin. cbn [fst snd]. apply in_combine_r in Hin.
    pose proof (shl_pin d (2 ^ fst ib) pd n) as HPin. rewrite Forall_forall in HPin.
    eapply sound_weaken; [apply select_pin; cbn; auto|auto|]. intros sg o _ E. exact E.
  - intros o HF. cbv beta in HF. apply Forall2_len in HF. rewrite combine_length, LS, HL in HF. lia.
  - intros sg o _ HF _ HB.
    assert (E : map (avs sg) o = map (fun xy => (snd xy - fst xy) * avs sg (snd ib) + fst xy)%F (combine (map (avs sg) pd) (map (qval sg) (shl_cells d (2 ^ fst ib) pd n)))).
    { clear - HF. revert HF. generalize (shl_cells d (2 ^ fst ib) pd n). generalize pd. clear. intros l l' HF.
      remember (combine l l') as c eqn:Ec. revert l l' Ec. induction HF as [|[x y] z c o Hz HF IH]; intros l l' Ec.
      - destruct l, l'; try discriminate; reflexivity.
      - destruct l, l'; try discriminate. cbn in Ec. injection Ec as -> -> ->. cbn [map combine fst snd] in *. rewrite Hz. f_equal. now apply IH. }
    rewrite E, select_bit_list; auto; [|rewrite !map_length; lia].
    rewrite <- HL, shl_val. destruct HB as [->| ->].
    + destruct (Feqb (F0 : Fp) F1) eqn:EE. { apply Feqb_eq in EE. exfalso. now apply (F1_neq_0 _ Hp). }
      rewrite val_0. cbn [Z.to_nat]. rewrite Nat.mul_0_r. now rewrite shr_0.
    + destruct (Feqb (F1 : Fp) F1) eqn:EE; [|now apply Feqb_neq in EE].
      rewrite (val_1 _ Hp). f_equal. cbn. lia.
Qed.

Lemma combine_seq_split {A} (l : list A) : forall k done i x rest, combine (seq k (length l)) l = done ++ (i, x) :: rest ->
  i = (k + length done)%nat /\ l = map snd done ++ x :: map snd rest.
Proof.
  induction l as [|y l IH]; intros k done i x rest H; cbn in H.
  - destruct done; discriminate.
  - destruct done as [|[j z] done]; cbn in H.
    + injection H as -> -> <-. split; [cbn; lia|]. cbn. f_equal. symmetry. apply map_snd_combine. now rewrite seq_length.
    + injection H as -> -> H. apply IH in H as [-> ->]. cbn. split; [lia|reflexivity].
Qed.

Lemma pad_loop_sound n (bits padded : list (AV p)) : length padded = n ->
  sound (foldM (pad_step n) (combine (seq 0 (length bits)) bits) padded) (fun o => length o = n)
    (fun sg o => Forall (fun b => is_bit (avs sg b)) bits ->
       map (avs sg) o = shr (Z.to_nat (undigits 1 (map (fun b => val (avs sg b)) bits))) (map (avs sg) padded)).
Proof.
  intros HL. set (l := combine (seq 0 (length bits)) bits).
  assert (El : map snd l = bits) by (apply map_snd_combine; now rewrite seq_length).
  eapply sound_weaken; [apply (sound_foldM lb (pad_step n) (fun _ o => length o = n) (fun done sg o => Forall (fun b => is_bit (avs sg b)) bits ->
       map (avs sg) o = shr (Z.to_nat (undigits 1 (map (fun ib => val (avs sg (snd ib))) done))) (map (avs sg) padded)) l padded HL)|auto|].
  - intros done [i x] rest pd Ed HPd. pose proof Ed as Ed'. apply combine_seq_split in Ed' as [-> Eb]. cbn [Nat.add] in *.
    eapply sound_weaken; [apply (pad_step_sound n pd (length done, x) HPd)|auto|]. cbn [fst snd].
    intros sg o _ H1 H2 HB. rewrite H1, (H2 HB), shr_shr; auto.
    2:{ rewrite Eb in HB. apply Forall_app in HB as [_ HB]. now inversion HB. }
    f_equal. rewrite map_app. cbn [map snd]. rewrite undigits_snoc, map_length. rewrite Nat.mul_1_l.
    pose proof (val_bounds p (avs sg x)).
    assert (0 <= undigits 1 (map (fun ib => val (avs sg (snd ib))) done)).
    { clear. induction done as [|d done IH]; cbn [map undigits]; [lia|]. pose proof (val_bounds p (avs sg (snd d))). pose proof (pow2_pos 1). nia. }
    pose proof (pow2_pos (length done)). rewrite Z2Nat.inj_add, Z2Nat.inj_mul by nia. f_equal. f_equal.
    change 2 with (Z.of_nat 2). rewrite <- Nat2Z.inj_pow, Nat2Z.id. reflexivity.
  - intros sg o _ H HB. cbv beta in H. rewrite H; auto.
    + do 2 f_equal. rewrite <- (map_map snd (fun b => val (avs sg b))), El. reflexivity.
    + intros _. cbn. now rewrite shr_0.
Qed.

Lemma is_bit_val (x : Fp) : 0 <= val x < 2 -> is_bit x.
Proof. intros H. rewrite <- (of_Z_val p x). assert (E : val x = 0 \/ val x = 1) by lia. destruct E as [-> | ->]; [left|right]; reflexivity. Qed.

(** shared arithmetic of the shift amount *)
Lemma shift_val n (x : Fp) : Z.of_nat n < Z.pos p -> val x <= Z.of_nat n ->
  val (of_Z p (Z.of_nat n) - x)%F = Z.of_nat n - val x.
Proof.
  intros H1 H2. pose proof (val_bounds p x). rewrite val_sub, val_of_Z_small by lia. apply Z.mod_small. lia.
Qed.
Lemma out_len_bound n : (Z.of_nat n < 2 ^ 64) -> Z.of_nat n < 2 ^ Z.of_nat (bit_length (Z.of_nat n)).
Proof.
  intros H. apply bit_length_spec. lia.
Qed.

Lemma left_pad_sound (arr : list (AV p)) (len : AV p) n :
  (length arr <= n)%nat -> Z.of_nat n < 2 ^ 64 -> 2 ^ Z.of_nat (bit_length (Z.of_nat n)) <= Z.pos p ->
  sound (left_pad_var_array_to_fixed arr len n) (fun o => length o = n)
    (fun sg o => let L := Z.to_nat (val (avs sg len)) in val (avs sg len) <= Z.of_nat (length arr) ->
       map (avs sg) o = repeat F0 (n - L) ++ firstn L (map (avs sg) arr)).
Proof.
  intros HL Hn Hb. pose proof (out_len_bound n Hn) as Hnb. unfold left_pad_var_array_to_fixed.
  eapply sound_bind; [apply sound_lift|]. intros x0 Hx0. cbv beta in Hx0.
  eapply sound_bind; [apply sub_pin; exact I|]. intros shift _. cbn [qval].
  eapply sound_bind; [apply (num_to_bits_sound_int lb Hp shift _ Hb)|]. intros bits Lb. cbv beta in Lb.
  eapply sound_weaken; [apply pad_loop_sound|auto|].
  { rewrite app_length, firstn_length, repeat_length. lia. }
  intros sg o _ H [_ Hd] Hs _ HLe. set (L := Z.to_nat (val (avs sg len))).
  assert (Hv : val (avs sg shift) = Z.of_nat n - val (avs sg len)) by (rewrite Hs; apply shift_val; lia).
  pose proof (val_bounds p (avs sg len)).
  rewrite H.
  - rewrite Hd, undigits_digits. rewrite Nat.mul_1_l, Hv, Z.mod_small by lia.
    rewrite map_app, map_repeat', <- firstn_map.
    rewrite <- (map_length (avs sg) arr). rewrite <- shr_final with (x := avs sg x0); [|rewrite map_length; unfold L; lia|rewrite map_length; auto].
    f_equal. unfold L. lia.
  - clear - Hd. assert (X := digits_bound 1 (length bits) (val (avs sg shift))).
    assert (Forall (fun d => 0 <= d < 2 ^ Z.of_nat 1) (map (fun x => val (avs sg x)) bits)) by (rewrite Hd; apply digits_bound).
    rewrite Forall_map in H. eapply Forall_impl; [|apply H]. cbn. intros a Ha. now apply is_bit_val.
Qed.

(** completeness of the barrel shifter *)
Lemma Forall2_nth_hv {A B} (R : A -> B -> Prop) l l' da db i : Forall2 R l l' -> (i < length l)%nat -> R (nth i l da) (nth i l' db).
Proof.
  intros H. revert i. induction H; intros i Hi; cbn in *; [lia|]. destruct i; auto. apply IHForall2. lia.
Qed.
Lemma shl_qh d k padded (vs : list Fp) : Forall2 hv padded vs -> Forall2 qh (shl_cells d k padded (length padded)) (shr k vs).
Proof.
  intros H. pose proof (Forall2_len _ _ _ H) as HL.
  assert (E : shr k vs = map (fun j => if Nat.leb k j then nth (j - k) vs F0 else F0) (seq 0 (length padded))).
  { apply nth_ext_err.
    - rewrite shr_len, map_length, seq_length. auto.
    - intros i Hi. rewrite shr_len in Hi. rewrite shr_nth by auto. rewrite nth_error_map, (nth_error_nth' _ 0%nat) by (rewrite seq_length; lia).
      rewrite seq_nth by lia. reflexivity. }
  rewrite E. unfold shl_cells. clear E.
  assert (X : forall js, (forall j, In j js -> (j < length padded)%nat) -> Forall2 qh (map (fun j => if Nat.leb k j then Existing (nth (j - k) padded d) else Constant F0) js)
    (map (fun j => if Nat.leb k j then nth (j - k) vs F0 else F0) js)).
  { induction js as [|j js IH]; intros Hj; cbn [map]; constructor; [|apply IH; intros; apply Hj; now right].
    destruct (Nat.leb_spec k j) as [Hk|Hk]; [|apply qh_const]. apply qh_existing. apply (Forall2_nth_hv hv); auto.
    pose proof (Hj j (or_introl eq_refl)). lia. }
  apply X. intros j Hj. apply in_seq in Hj. lia.
Qed.
Lemma shl_ok rho d k padded : Forall (av_ok rho) padded -> Forall (q_ok (p:=p) rho) (shl_cells d k padded (length padded)).
Proof.
  intros H. unfold shl_cells. apply Forall_forall. intros q Hq. apply in_map_iff in Hq as (j & <- & Hj). apply in_seq in Hj.
  destruct (Nat.leb_spec k j); cbn; auto. rewrite Forall_forall in H. apply H. apply nth_In. lia.
Qed.
Lemma Forall2_combine' {A B C D} (R : A -> B -> Prop) (T : C -> D -> Prop) l1 l2 : Forall2 R l1 l2 -> forall k1 k2, Forall2 T k1 k2 ->
  Forall2 (fun x y => R (fst x) (fst y) /\ T (snd x) (snd y)) (combine l1 k1) (combine l2 k2).
Proof. induction 1; intros k1 k2 HT; cbn; [constructor|]. destruct HT; cbn; constructor; auto. Qed.

Lemma pad_step_comp n padded (vs : list Fp) ib z : Forall2 hv padded vs -> length padded = n -> hv (snd ib) z -> is_bit z ->
  comp (fun rho => Forall (av_ok rho) padded /\ av_ok rho (snd ib)) (pad_step n padded ib)
    (fun o => Forall2 hv o (shr (2 ^ fst ib * Z.to_nat (val z)) vs)) (fun rho o => Forall (av_ok rho) o).
Proof.
  intros HV HL Hz HB. unfold pad_step. destruct padded as [|d padded].
  { inversion HV; subst. cbn in *. eapply (comp_bind lb _ _ _ (fun _ => True) (fun l : list (qcell p) => l = []) (fun _ _ => True)); auto.
    - apply comp_ret; auto.
    - intros l ->. cbn [combine mapM]. apply comp_ret; auto. }
  set (pd := d :: padded) in *.
  eapply (comp_bind lb _ _ _ (fun _ => True) (fun l => l = shl_cells d (2 ^ fst ib) pd n) (fun _ _ => True)); auto.
  { intros s W. exists (shl_cells d (2 ^ fst ib) pd n), s. split; [apply shifted_eq; lia|auto 10 using ext_refl]. }
  intros l ->. subst n. pose proof (shl_qh d (2 ^ fst ib) pd vs HV) as HS.
  pose proof (Forall2_len _ _ _ HV) as LV.
  eapply comp_weaken; [apply (comp_mapM_hv _ (fun rho => Forall (av_ok rho) pd /\ av_ok rho (snd ib)) _
      (fun xy => (snd xy - fst xy) * z + fst xy)%F _ _ (Forall2_combine' _ _ _ _ HV _ _ HS))| | |]; cbv beta; auto.
  - intros [x y] [vx vy] Hin [Hx Hy]. cbn [fst snd] in *.
    eapply comp_weaken; [apply (select_comp lb y (Existing x) (Existing (snd ib)) vy vx z); auto using qh_existing| |auto|auto].
    intros rho [HA Hb]. unfold qok3. cbn [q_ok]. split; [|split]; auto.
    + apply in_combine_r in Hin. pose proof (shl_ok rho d (2 ^ fst ib) pd HA) as K. rewrite Forall_forall in K. auto.
    + apply in_combine_l in Hin. rewrite Forall_forall in HA. auto.
  - intros rho [? _]. auto.
  - intros o Ho. rewrite select_bit_list in Ho; auto; [|now rewrite shr_len].
    destruct HB as [->| ->].
    + destruct (Feqb (F0 : Fp) F1) eqn:EE. { apply Feqb_eq in EE. exfalso. now apply (F1_neq_0 _ Hp). }
      rewrite val_0. cbn [Z.to_nat]. rewrite Nat.mul_0_r. now rewrite shr_0.
    + destruct (Feqb (F1 : Fp) F1) eqn:EE; [|now apply Feqb_neq in EE].
      rewrite (val_1 _ Hp). cbn [Z.to_nat Pos.to_nat Pos.iter_op]. now rewrite Nat.mul_1_r.
Qed.

Lemma pad_loop_comp n (padded : list (AV p)) (vs : list Fp) : forall (bits : list (AV p)) (ds : list Z) k, Forall2 hv padded vs -> length padded = n ->
  Forall2 (fun b d => hv b (of_Z p d)) bits ds -> Forall (fun d => 0 <= d < 2) ds ->
  comp (fun rho => Forall (av_ok rho) padded /\ Forall (av_ok rho) bits)
    (foldM (pad_step n) (combine (seq k (length bits)) bits) padded)
    (fun o => Forall2 hv o (shr (2 ^ k * Z.to_nat (undigits 1 ds)) vs)) (fun rho o => Forall (av_ok rho) o).
Proof.
  intros bits. revert padded vs. induction bits as [|b bits IH]; intros padded vs ds k HV HL HB HD; inversion HB; subst.
  - cbn [length seq combine foldM undigits Z.to_nat]. rewrite Nat.mul_0_r. apply comp_ret; [now rewrite shr_0|tauto].
  - rename y into d, l' into ds'. inversion HD; subst. cbn [length seq combine foldM].
    assert (V : val (of_Z p d) = d) by (apply val_of_Z_small; pose proof (prime_ge_2 _ Hp); lia).
    eapply comp_bind; [apply (pad_step_comp (length padded) padded vs (k, b) (of_Z p d)); auto| |].
    + apply is_bit_val. now rewrite V.
    + intros rho [HA HF]. inversion HF; subst. auto.
    + cbn [fst snd]. rewrite V. intros pd HPd. cbv beta in HPd.
      assert (LP : length pd = length padded).
      { apply Forall2_len in HPd. rewrite shr_len in HPd. apply Forall2_len in HV. lia. }
      eapply comp_weaken; [apply (IH pd _ ds' (S k) HPd LP); auto| | |auto].
      * cbv beta. intros rho [[HA HF] HQ]. inversion HF; subst. auto.
      * cbv beta. intros o Ho. rewrite shr_shr in Ho. cbn [undigits].
        assert (U : 0 <= undigits 1 ds').
        { apply undigits_bound. eapply Forall_impl; [|eassumption]. cbn. lia. }
        replace (2 ^ k * Z.to_nat (d + 2 ^ Z.of_nat 1 * undigits 1 ds'))%nat with (2 ^ k * Z.to_nat d + 2 ^ S k * Z.to_nat (undigits 1 ds'))%nat; auto.
        rewrite Z2Nat.inj_add, Z2Nat.inj_mul by lia. cbn [Nat.pow]. change (Z.to_nat (2 ^ Z.of_nat 1)) with 2%nat. lia.
Qed.

Lemma left_pad_comp (arr : list (AV p)) (vs : list Fp) (len : AV p) (L : nat) n :
  Forall2 hv arr vs -> hv len (of_Z p (Z.of_nat L)) -> (0 < length arr)%nat -> (L <= length arr <= n)%nat -> Z.of_nat n < 2 ^ 64 -> 2 ^ Z.of_nat (bit_length (Z.of_nat n)) <= Z.pos p ->
  (bit_length (Z.of_nat n) <= NUM_BITS p)%nat ->
  comp (fun rho => Forall (av_ok rho) arr /\ av_ok rho len) (left_pad_var_array_to_fixed arr len n)
    (fun o => Forall2 hv o (repeat F0 (n - L) ++ firstn L vs)) (fun rho o => Forall (av_ok rho) o).
Proof.
  intros HV HLen H0 HL Hn Hb HNB. pose proof (out_len_bound n Hn) as Hnb. unfold left_pad_var_array_to_fixed.
  pose proof (Forall2_len _ _ _ HV) as LV.
  destruct arr as [|x0 arr]; [cbn in H0; lia|]. destruct vs as [|v0 vs]; [discriminate|].
  eapply comp_bind; [apply (comp_lift lb (nth_error (x0 :: arr) 0) x0 (fun _ => True)); reflexivity|intros; exact I|]. intros y Ey. cbv beta in Ey.
  subst y.
  set (ar := x0 :: arr) in *. set (vv := v0 :: vs) in *.
  eapply comp_bind; [apply (sub_comp lb (Constant (of_Z p (Z.of_nat n))) (Existing len) (of_Z p (Z.of_nat n)) (of_Z p (Z.of_nat L))); auto using qh_const, qh_existing| |].
  { ctau. }
  intros shift Hs. cbv beta in Hs.
  assert (VL : val (of_Z p (Z.of_nat L)) = Z.of_nat L) by (apply val_of_Z_small; lia).
  assert (Hv : val (of_Z p (Z.of_nat n) - of_Z p (Z.of_nat L))%F = Z.of_nat n - Z.of_nat L).
  { rewrite shift_val; rewrite ?VL; lia. }
  eapply comp_bind; [apply (num_to_bits_comp lb Hp shift _ (bit_length (Z.of_nat n)) Hs)| |].
  { split; auto. destruct (bit_length (Z.of_nat n)) eqn:E; [|lia]. cbn in Hnb. unfold ar in HL. cbn [length] in HL. lia. }
  { rewrite Hv. lia. }
  { ctau. }
  intros bits HBt. cbv beta in HBt. rewrite Hv in HBt.
  assert (HBt' : Forall2 (fun b d => hv b (of_Z p d)) bits (digits 1 (bit_length (Z.of_nat n)) (Z.of_nat n - Z.of_nat L))).
  { revert HBt. generalize (digits 1 (bit_length (Z.of_nat n)) (Z.of_nat n - Z.of_nat L)). clear. intros l H.
    remember (map (of_Z p) l) as m eqn:Em. revert l Em. induction H; intros [|z l1] Em; try discriminate; constructor; cbn in Em; injection Em as -> ->; auto. }
  assert (HPv : Forall2 hv (firstn n ar ++ repeat x0 (n - length ar)) (firstn n vv ++ repeat v0 (n - length vv))).
  { rewrite !firstn_all2 by lia. apply Forall2_app; auto. rewrite LV. assert (hv x0 v0) by (unfold ar, vv in HV; inversion HV; auto).
    clear - H. induction (n - length vv)%nat; cbn; constructor; auto. }
  eapply comp_weaken; [eapply (pad_loop_comp n _ _ bits _ 0%nat HPv); [|exact HBt'|apply (digits_bound 1)]| | |auto].
  - rewrite app_length, firstn_length, repeat_length. lia.
  - cbv beta. intros rho HH. assert (HA : Forall (av_ok rho) ar) by tauto. split; [|tauto]. apply Forall_app. split; [now apply Forall_firstn'|].
    apply Forall_forall. intros y Hy. apply repeat_spec in Hy. subst y. unfold ar in HA. inversion HA; auto.
  - cbv beta. intros o Ho. rewrite undigits_digits, (Nat.mul_1_l (bit_length (Z.of_nat n))), Z.mod_small in Ho by lia.
    cbn [Nat.pow] in Ho. rewrite Nat.mul_1_l in Ho. replace (Z.to_nat (Z.of_nat n - Z.of_nat L)) with (n - L)%nat in Ho by lia.
    rewrite shr_final in Ho; auto; lia.
Qed.

(** ** ensure_0_padding *)
Lemma fsum_app' (a b : list Fp) : fsum (a ++ b) = (fsum a + fsum b)%F.
Proof. induction a; cbn [app fsum]; [ring|]. rewrite IHa. ring. Qed.
Lemma fsum_rev (a : list Fp) : fsum (rev a) = fsum a.
Proof. induction a; cbn [rev fsum]; auto. rewrite fsum_app', IHa. cbn [fsum]. ring. Qed.
(** the mask computed from the indicator of [len - 1] *)
Definition mask_of (ind : list Fp) : list Fp := rev (match rev ind with [] => [F0] | _ => prefix_sums (rev ind) end).
Lemma mask_eq (ind : list Fp) : ind <> [] -> mask_of ind = map (fun i => fsum (skipn i ind)) (seq 0 (length ind)).
Proof.
  intros HN. unfold mask_of. assert (E : match rev ind with [] => [F0] | _ => prefix_sums (rev ind) end = prefix_sums (rev ind)).
  { destruct (rev ind) eqn:E; auto. exfalso. apply HN. rewrite <- (rev_involutive ind), E. reflexivity. }
  rewrite E. clear E. unfold prefix_sums. rewrite rev_length.
  assert (K : forall n, (n <= length ind)%nat -> rev (map (fun k => fsum (firstn k (rev ind))) (seq 1 n)) = map (fun i => fsum (skipn i ind)) (seq (length ind - n) n)).
  { induction n as [|n IH]; intros Hn; [reflexivity|]. rewrite seq_S, map_app, rev_app_distr. cbn [map rev app].
    rewrite IH by lia. replace (length ind - n)%nat with (S (length ind - S n)) by lia. cbn [seq map]. f_equal.
    rewrite firstn_rev, fsum_rev. reflexivity. }
  rewrite K by lia. now rewrite Nat.sub_diag.
Qed.
Lemma ind_val (x : Fp) n i : (i < n)%nat -> Z.of_nat n < Z.pos p ->
  Feqb (x - F1)%F (of_Z p (Z.of_nat i)) = (Z.to_nat (val x) =? S i)%nat.
Proof.
  intros Hi Hn. pose proof (val_bounds p x) as Hx. apply eq_true_iff_eq. rewrite Feqb_eq, Nat.eqb_eq. split; intros H.
  - assert (E : x = of_Z p (Z.of_nat (S i))).
    { replace (Z.of_nat (S i)) with (Z.of_nat i + 1) by lia. rewrite of_Z_add, <- H. change (of_Z p 1) with (F1 : Fp). ring. }
    rewrite E, val_of_Z_small by lia. lia.
  - assert (E : x = of_Z p (Z.of_nat (S i))) by (rewrite <- H, Z2Nat.id, of_Z_val by lia; reflexivity).
    rewrite E. replace (Z.of_nat (S i)) with (Z.of_nat i + 1) by lia. rewrite of_Z_add. change (of_Z p 1) with (F1 : Fp). ring.
Qed.
Lemma mask_ind (x : Fp) n : Z.of_nat n < Z.pos p -> val x <= Z.of_nat n -> (0 < n)%nat ->
  mask_of (idx_ind (x - F1)%F n) = map (fun i => fbool (i <? Z.to_nat (val x))%nat) (seq 0 n).
Proof.
  intros Hn Hx H0. pose proof (val_bounds p x). set (L := Z.to_nat (val x)) in *.
  assert (EI : idx_ind (x - F1)%F n = map (fun i => fbool (L =? S i)%nat) (seq 0 n)).
  { unfold idx_ind. apply map_ext_in. intros i Hi. apply in_seq in Hi. f_equal. apply ind_val with (n := n); lia. }
  rewrite EI, mask_eq.
  2:{ destruct n; [lia|]. discriminate. }
  rewrite map_length, seq_length. apply map_ext_in. intros i Hi. apply in_seq in Hi.
  assert (K : forall k j, (j + k = n)%nat -> fsum (map (fun i => fbool (L =? S i)%nat) (seq j k)) = (fbool (j <? L)%nat : Fp)).
  { induction k as [|k IH]; intros j Hj; cbn [seq map fsum].
    - destruct (Nat.ltb_spec j L); [lia|reflexivity].
    - rewrite IH by lia. destruct (Nat.eqb_spec L (S j)); destruct (Nat.ltb_spec (S j) L); destruct (Nat.ltb_spec j L); try lia; cbn [fbool]; ring. }
  rewrite <- K with (k := (n - i)%nat) by lia. f_equal. clear - Hi.
  replace n with (i + (n - i))%nat at 1 by lia. rewrite seq_app, map_app. rewrite skipn_app, map_length, seq_length.
  rewrite skipn_all2 by (rewrite map_length, seq_length; lia). rewrite Nat.sub_diag. reflexivity.
Qed.
(** multiplying by the mask keeps the first [L] elements *)
Lemma mask_mul (l : list Fp) L k : map (fun xy => fst xy * snd xy)%F (combine l (map (fun i => fbool (i <? k + L)%nat) (seq k (length l)))) =
  firstn L l ++ repeat F0 (length l - L).
Proof.
  revert L k. induction l as [|x l IH]; intros L k; cbn [length seq map combine]. { now rewrite firstn_nil. }
  cbn [fst snd]. destruct L as [|L].
  - destruct (Nat.ltb_spec k (k + 0)); [lia|]. cbn [firstn app fbool Nat.sub repeat]. f_equal; [ring|].
    specialize (IH 0%nat (S k)). cbn [firstn app] in IH. rewrite Nat.sub_0_r in IH. rewrite <- IH. do 2 f_equal. apply map_ext_in. intros i Hi. apply in_seq in Hi. f_equal.
    destruct (Nat.ltb_spec i (k + 0)), (Nat.ltb_spec i (S k + 0)); auto; lia.
  - destruct (Nat.ltb_spec k (k + S L)); [|lia]. cbn [firstn app fbool Nat.sub]. f_equal; [ring|].
    rewrite <- IH with (k := S k). do 2 f_equal. apply map_ext. intros i. f_equal. f_equal. lia.
Qed.

Lemma mapM_len' {A B} (f : A -> M p B) l : forall s o s', mapM f l s = Some (o, s') -> length o = length l.
Proof.
  induction l as [|x l IH]; intros s o s' H; cbn [mapM] in H. { injection H as <- <-. reflexivity. }
  apply bind_inv in H as (y & s1 & _ & H). apply bind_inv in H as (ys & s2 & H & E). injection E as <- <-. cbn. f_equal. eauto.
Qed.
Lemma partial_sums_len (l : list (qcell p)) : sound (partial_sums l) (fun o => length o = match l with [] => 1%nat | _ => length l end) (fun _ _ => True).
Proof.
  intros s o s' W E. destruct (partial_sums_sound lb l s o s' W E) as (W1 & X1 & _ & _). do 2 (split; auto). split; auto.
  unfold partial_sums in E. destruct l as [|q l].
  - apply bind_inv in E as (z & s1 & _ & E). injection E as <- <-. reflexivity.
  - destruct l as [|q2 l].
    + apply bind_inv in E as (z & s1 & _ & E). injection E as <- <-. reflexivity.
    + apply bind_inv in E as (z & s1 & _ & E). apply bind_inv in E as (c & s2 & _ & E). apply bind_inv in E as (u & s3 & _ & E).
      apply mapM_len' in E. now rewrite rev_length, seq_length in E.
Qed.
Lemma ensure_0_padding_sound (bytes : list (AV p)) (len : AV p) : Z.of_nat (length bytes) < Z.pos p ->
  sound (ensure_0_padding bytes len) (fun o => length o = length bytes)
    (fun sg o => let L := Z.to_nat (val (avs sg len)) in val (avs sg len) <= Z.of_nat (length bytes) ->
       map (avs sg) o = firstn L (map (avs sg) bytes) ++ repeat F0 (length bytes - L)).
Proof.
  intros Hn. unfold ensure_0_padding. eapply sound_bind; [apply sub_pin; exact I|]. intros idx _. cbn [qval].
  eapply sound_bind; [apply (idx_to_indicator_sound lb Hp)|]. intros ind Lind. cbv beta in Lind.
  eapply sound_bind. { eapply sound_conj; [apply partial_sums_sound|apply partial_sums_len]. }
  intros mask [_ Lm]. cbv beta in Lm.
  assert (Lm' : (length bytes <= length mask)%nat).
  { rewrite Lm, <- Lind, <- (rev_length ind). destruct (rev ind); cbn; rewrite ?map_length; lia. }
  eapply sound_weaken; [apply (sound_mapM lb _ (fun _ _ => True) (fun sg bm o => avs sg o = (avs sg (fst bm) * avs sg (snd bm))%F))| |].
  - intros [x y] _. eapply sound_weaken; [apply mul_pin; exact I|auto|]. intros sg o _ E. exact E.
  - cbv beta. intros o HF. apply Forall2_len in HF. rewrite combine_length, rev_length in HF. lia.
  - cbv beta zeta. intros sg o _ HF [(xs & Hxs & Em) _] (x & Hx & Ei) Hidx HL. cbn in Hx. subst x.
    assert (E : map (avs sg) o = map (fun xy => fst xy * snd xy)%F (combine (map (avs sg) bytes) (map (avs sg) (rev mask)))).
    { clear - HF. revert HF. generalize bytes (rev mask). intros l l' HF.
      remember (combine l l') as c eqn:Ec. revert l l' Ec. induction HF as [|[x y] z c o Hz HF IH]; intros l l' Ec.
      - destruct l, l'; try discriminate; reflexivity.
      - destruct l, l'; try discriminate. cbn in Ec. injection Ec as -> -> ->. cbn [map combine fst snd] in *. rewrite Hz. f_equal. now apply IH. }
    rewrite E. destruct bytes as [|b0 bytes]. { cbn. now rewrite firstn_nil. }
    set (bs := b0 :: bytes) in *. assert (H0 : (0 < length bs)%nat) by (cbn; lia). clearbody bs. clear E HF.
    assert (Exs : xs = rev (idx_ind (avs sg len - F1)%F (length bs))).
    { rewrite Hidx in Ei. rewrite <- Ei, <- map_rev. clear - Hxs. remember (map Existing (rev ind)) as qs eqn:Eq. revert Eq. generalize (rev ind). clear ind.
      induction Hxs; intros [|y1 l1] Eq; try discriminate; auto. cbn in Eq. injection Eq as -> ->. cbn. f_equal; auto. }
    rewrite map_rev, Em, Exs. fold (mask_of (idx_ind (avs sg len - F1)%F (length bs))). rewrite mask_ind by lia.
    rewrite <- (map_length (avs sg) bs). pose proof (mask_mul (map (avs sg) bs) (Z.to_nat (val (avs sg len))) 0) as K. exact K.
Qed.
End Safe.
