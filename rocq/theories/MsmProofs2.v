(** Soundness of [multi_scalar_multiply] (halo2-ecc/src/ecc/mod.rs:636-765): windows, rounds, and the main theorem. *)
From Coq Require Import ZArith Znumtheory Lia List Bool Ring.
From Verif Require Import Field Spec Context ContextProofs Utils Logic Gate GateProofs ChainProofs IPProofs BitProofs PowProofs IPComp Derived Calc CalcH
  Range RangeProofs RangeProofs2 RangeProofs3 BigInt BigSpec BigNum BigPrims BigOps BigSel BigCmp BigSub BigCarry BigMod BigCrtNum BigCrt
  FpChip FpProofs FpProofs2 FpProofs3 FpField FpField2 FpField3 Bn254Primes PropsBigInt PropsFp EcGroup EccFacts SafeTypes Ecc EccProofs EccProofs2 EccProofs3 PropsEcc EcComb SafeProofs2 MsmProofs.
Import ListNotations.
Local Open Scope Z_scope.

Definition zb (bs : list bool) : Z := undigits 1 (map Z.b2z bs).
(** ** lists *)
Lemma nth_error_chunk {A} (ll : list (list A)) c : (0 < c)%nat -> Forall (fun l => length l = c) ll -> chunks c (concat ll) = ll.
Proof.
  intros Hc HL. assert (LC : length (concat ll) = (length ll * c)%nat).
  { induction HL as [|l ll E _ IH]; [reflexivity|]. cbn [concat length Nat.mul]. rewrite app_length, IH, E. reflexivity. }
  unfold chunks, ceil_div. rewrite LC.
  assert (EQ : ((length ll * c + c - 1) / c)%nat = length ll).
  { replace (length ll * c + c - 1)%nat with (length ll * c + (c - 1))%nat by lia. rewrite Nat.div_add_l by lia. rewrite Nat.div_small by lia. lia. }
  rewrite EQ. clear EQ LC.
  assert (G : forall (ll : list (list A)) (pre : list (list A)), Forall (fun l => length l = c) ll -> Forall (fun l => length l = c) pre ->
     map (fun i => firstn c (skipn (i * c) (concat (pre ++ ll)))) (seq (length pre) (length ll)) = ll).
  { clear ll HL. induction ll as [|l ll IH]; intros pre Hl Hp'; [reflexivity|]. inversion Hl as [|? ? El Hl']; subst. cbn [length seq map]. f_equal.
    - rewrite concat_app, skipn_app.
      assert (LP : length (concat pre) = (length pre * length l)%nat).
      { clear - Hp'. induction Hp' as [|x pre E _ IH]; [reflexivity|]. cbn [concat length Nat.mul]. rewrite app_length, IH, E. reflexivity. }
      rewrite (skipn_all2 (n:=(length pre * length l)%nat) (concat pre)) by lia. rewrite LP, Nat.sub_diag. cbn [skipn app concat].
      rewrite firstn_app, Nat.sub_diag. cbn [firstn]. now rewrite firstn_all, app_nil_r.
    - specialize (IH (pre ++ [l]) Hl'). rewrite <- app_assoc in IH. cbn [app] in IH. rewrite app_length in IH. cbn [length] in IH.
      replace (S (length pre)) with (length pre + 1)%nat by lia. apply IH. apply Forall_app. auto. }
  exact (G ll [] HL ltac:(constructor)).
Qed.
Lemma undigits_app bb l1 l2 : undigits bb (l1 ++ l2) = undigits bb l1 + 2 ^ Z.of_nat (bb * length l1) * undigits bb l2.
Proof.
  induction l1 as [|x l1 IH]; cbn [app undigits length].
  - rewrite Nat.mul_0_r. cbn. destruct (undigits bb l2); reflexivity.
  - rewrite IH. rewrite Nat.mul_succ_r, Nat2Z.inj_add, Z.pow_add_r by lia. ring.
Qed.
Lemma zb_app l1 l2 : zb (l1 ++ l2) = zb l1 + 2 ^ Z.of_nat (length l1) * zb l2.
Proof. unfold zb. rewrite map_app, undigits_app, map_length, Nat.mul_1_l. reflexivity. Qed.
Lemma zb_bound l : 0 <= zb l < 2 ^ Z.of_nat (length l).
Proof.
  unfold zb. pose proof (undigits_bound 1 (map Z.b2z l)) as H. rewrite map_length, Nat.mul_1_l in H. apply H.
  apply Forall_forall. intros x Hx. apply in_map_iff in Hx as (v & <- & _). destruct v; cbn; lia.
Qed.
Lemma zb_false l : zb (repeat false l) = 0.
Proof. unfold zb. induction l as [|l IH]; cbn [repeat map undigits]; auto. rewrite IH. cbn [Z.b2z]. lia. Qed.
Lemma zb_concat bb (ll : list (list bool)) : Forall (fun l => length l = bb) ll -> zb (concat ll) = undigits bb (map zb ll).
Proof. induction 1 as [|l ll E _ IH]; cbn [concat map undigits]; [reflexivity|]. now rewrite zb_app, IH, E. Qed.

Section Msm.
Context (p m : positive) (lb : nat) (Hp : prime (Z.pos p)) (Hlb : (1 <= lb < 64)%nat) (Hlb2 : (2 * lb <= CAPACITY p)%nat) (Hm : prime (Z.pos m)) (H3 : 3 < Z.pos m).
Context (n k : nat) (ch : fpchip p) (HN : fpchip_new m n k = Some ch) (HK : fp_params (p:=p) lb m n k).
Notation M2 := (2 ^ Z.of_nat (bits (Z.pos m))).
Context (HE1 : (Nat.max (log2_ceil (Z.of_nat k) + 2 * n + 5) (2 * n + bit_length (Z.of_nat k)) + lb + 2 <= CAPACITY p)%nat)
  (HE2 : 64 * (M2 * M2) < 2 ^ Z.of_nat (n * k + NUM_BITS p)).
Context (b : F m) (Hb : b <> F0).
Notation ecpt := (ecpt p).
Notation at_pt := (at_pt (p:=p) m n).
Notation at_cmp := (at_cmp (p:=p) m n).
Notation shape := (shape (p:=p) n k).
Notation onc2 := (onc2 m b).
Notation onc := (onc m b).
Notation eadd := (eadd m).
Notation eneg := (eneg m).
Notation lcf := (lcf m).
Notation pt := (pt m).
Notation sound := (sound lb).
Let Hm1 : 1 < Z.pos m. Proof. lia. Qed.


Notation gat := (gat p m n).
Notation table := (table p m n).
Notation pin := (pin p m n).
Definition binds (sg : cell -> F p) (l : list (AV p)) (bs : list bool) : Prop := map (avs sg) l = map fbool bs.

Lemma sound_assoc' {A B C} (mm : M p A) (f : A -> M p B) (g : B -> M p C) P Q :
  sound (bind mm (fun a => bind (f a) g)) P Q -> sound (bind (bind mm f) g) P Q.
Proof. apply sound_ext_m. intros s. unfold bind. destruct (mm s) as [[a s1]|]; reflexivity. Qed.
(** ** one window *)
Definition sumd (ds : list (nat -> Z)) (j : nat) : Z := fold_right (fun (d : nat -> Z) a => d j + a) 0 ds.
Definition digit (w rb idx : nat) (bs : list bool) : Z := zb (firstn (rb - w * idx - (rb - w * (idx + 1))) (skipn (rb - w * (idx + 1)) bs)).
Lemma binds_slice sg l bs lo hi s : binds sg l bs -> slice l lo hi = Some s -> binds sg s (firstn (hi - lo) (skipn lo bs)) /\ (lo <= hi)%nat /\ (hi <= length l)%nat.
Proof.
  unfold slice, binds. intros E H. destruct (Nat.leb_spec lo hi); cbn in H; [|discriminate]. destruct (Nat.leb_spec hi (length l)); [|discriminate].
  injection H as <-. split; [|auto]. rewrite <- firstn_map, <- skipn_map, E, skipn_map, firstn_map. reflexivity.
Qed.
Lemma binds_len sg l bs : binds sg l bs -> length l = length bs.
Proof. intros H. apply (f_equal (@length _)) in H. now rewrite !map_length in H. Qed.
Lemma g_window w rb idx curr cb : shape curr -> Forall shape (fst cb) -> length (fst cb) = (2 ^ w)%nat ->
  sound (msm_window lb m ch w rb idx curr cb) shape
    (fun sg R => forall Bs c base i bs, Forall onc Bs -> gat Bs (avs sg) curr c -> table Bs (avs sg) (fst cb) base i -> binds sg (snd cb) bs ->
       gat Bs (avs sg) R (fun j => c j + (base j + digit w rb idx bs * unit_at i j))).
Proof.
  intros Kc Kt Lt. destruct cb as [tab bl]. cbn [fst snd] in *. unfold msm_window. cbn [fst snd].
  apply sound_lift_bind. intros sel Es.
  eapply sound_bind; [apply (C56_select_from_bits_sound p m lb Hp Hlb Hlb2 H3 n k ch HN HE1 HE2 tab sel Kt)|]. intros add Ka.
  eapply sound_weaken; [apply (g_add p m lb Hp Hlb Hlb2 Hm H3 n k ch HN HK HE1 HE2 b Hb curr add Kc Ka)|auto|cbv beta].
  intros sg R _ HA HS Bs c base i bs HB Hc Ht Hbs. destruct (binds_slice sg bl bs _ _ sel Hbs Es) as (B1 & B2 & B3).
  apply (HA Bs c (fun j => base j + digit w rb idx bs * unit_at i j) HB Hc).
  fold (digit w rb idx bs) in *. set (bsel := firstn _ (skipn _ bs)) in *. change (digit w rb idx bs) with (zb bsel).
  pose proof (zb_bound bsel) as Bd. assert (Lb : (length bsel <= w)%nat) by (unfold bsel; rewrite firstn_length; lia).
  assert (Lz : (Z.to_nat (zb bsel) < 2 ^ w)%nat).
  { apply Nat2Z.inj_lt. rewrite Z2Nat.id by lia. rewrite Nat2Z.inj_pow. change (Z.of_nat 2) with 2. pose proof (Z.pow_le_mono_r 2 (Z.of_nat (length bsel)) (Z.of_nat w)). lia. }
  destruct (nth_error tab (Z.to_nat (zb bsel))) as [D|] eqn:ED; [|apply nth_error_None in ED; lia].
  pose proof (Ht _ D ED) as (x & y & A & E). exists x, y. split; [|rewrite <- E].
  - exact (HS bsel D x y B1 ED A).
  - apply (lcf_ext m). intros j B _. right. cbv beta. rewrite Z2Nat.id by lia. reflexivity.
Qed.
Lemma g_windows w rb idx cbs : forall curr, shape curr -> Forall (fun cb => Forall shape (fst cb) /\ length (fst cb) = (2 ^ w)%nat) cbs ->
  sound (foldM (msm_window lb m ch w rb idx) cbs curr) shape
    (fun sg R => forall Bs c ds, Forall onc Bs -> gat Bs (avs sg) curr c ->
       Forall2 (fun cb d => exists base i bs, table Bs (avs sg) (fst cb) base i /\ binds sg (snd cb) bs /\ (forall j, d j = base j + digit w rb idx bs * unit_at i j)) cbs ds ->
       gat Bs (avs sg) R (fun j => c j + sumd ds j)).
Proof.
  induction cbs as [|cb cbs IH]; intros curr Kc HF; cbn [foldM].
  - apply sound_ret; auto. intros sg Bs c ds _ Hc H2. inversion H2. eapply gat_ext; [|exact Hc]. intros j B _. right. cbn. lia.
  - inversion HF as [|? ? [K1 K2] HF']; subst. eapply sound_bind; [apply (g_window w rb idx curr cb Kc K1 K2)|]. intros c1 Kc1.
    eapply sound_weaken; [apply (IH c1 Kc1 HF')|auto|cbv beta]. intros sg R _ HR HW Bs c ds HB Hc H2.
    inversion H2 as [|? d ? ds' (base & i & bs & T1 & T2 & T3) H2']; subst.
    eapply gat_ext; [|apply (HR Bs _ ds' HB (HW Bs c base i bs HB Hc T1 T2) H2')]. intros j B _. right. cbn [sumd fold_right]. unfold sumd. rewrite T3. lia.
Qed.

(** ** one round *)
Definition base_c (w i j : nat) : Z := match j with O => 2 ^ Z.of_nat i - 2 ^ Z.of_nat (i + w) | S _ => 0 end.
Lemma mkds w rb t sg Bs (bss : list (list bool)) : forall (caches : list (list ecpt)) bitss a, length caches = length bitss -> Forall2 (binds sg) bitss bss ->
  (forall i tab, nth_error caches i = Some tab -> table Bs (avs sg) tab (base_c w (a + i)) (S (a + i))) ->
  exists ds, Forall2 (fun cb d => exists base i bs, table Bs (avs sg) (fst cb) base i /\ binds sg (snd cb) bs /\ (forall j, d j = base j + digit w rb t bs * unit_at i j)) (combine caches bitss) ds /\
    forall j, sumd ds j = match j with O => 2 ^ Z.of_nat a * (2 ^ Z.of_nat (length caches) - 1) * (1 - 2 ^ Z.of_nat w)
                          | S i => if Nat.ltb i a then 0 else digit w rb t (nth (i - a) bss []) end.
Proof.
  induction bss as [|bs bss IH]; intros caches bitss a L H2 HT.
  - inversion H2; subst. destruct caches; [|discriminate]. exists []. split; [constructor|]. intros [|i]; cbn [sumd fold_right length].
    + cbn. ring.
    + destruct (Nat.ltb i a); auto. destruct (i - a)%nat; cbn [nth]; unfold digit; rewrite skipn_nil, firstn_nil; reflexivity.
  - inversion H2 as [|bl ? bitss' ? HB H2' E1 E2]; subst. destruct caches as [|tab caches]; [discriminate|]. injection L as L.
    destruct (IH caches bitss' (S a) L H2') as (ds & D1 & D2).
    { intros i tb E. replace (S a + i)%nat with (a + S i)%nat by lia. apply HT. exact E. }
    exists ((fun j => base_c w a j + digit w rb t bs * unit_at (S a) j) :: ds). split.
    + cbn [combine]. constructor; auto. exists (base_c w a), (S a), bs. cbn [fst snd]. split; [|auto]. specialize (HT O tab eq_refl). now rewrite Nat.add_0_r in HT.
    + intros j. cbn [sumd fold_right]. fold (sumd ds j). rewrite D2. destruct j as [|i]; cbn [base_c].
      * unfold unit_at. cbn [Nat.eqb length]. rewrite !Nat2Z.inj_add, (Nat2Z.inj_succ a), (Nat2Z.inj_succ (length caches)), !Z.pow_add_r, !Z.pow_succ_r by lia. ring.
      * unfold unit_at. cbn [Nat.eqb]. destruct (Nat.eqb_spec i a) as [->|Ne].
        -- rewrite Nat.ltb_irrefl, Nat.sub_diag. cbn [nth]. replace (Nat.ltb a (S a)) with true by (symmetry; apply Nat.ltb_lt; lia). ring.
        -- destruct (Nat.ltb_spec i a), (Nat.ltb_spec i (S a)); try lia. replace (i - a)%nat with (S (i - S a)) by lia. cbn [nth]. ring.
Qed.
Lemma g_round w rb t caches bitss curr : (0 < rb)%nat -> length caches = length bitss -> shape curr ->
  Forall (fun tab => Forall shape tab /\ length tab = (2 ^ w)%nat) caches -> Forall (fun bl => length bl = rb) bitss ->
  sound (msm_round lb m ch w rb (concat caches) (concat bitss) curr t) shape
    (fun sg R => forall Bs c bss, Forall onc Bs -> gat Bs (avs sg) curr c ->
       (forall i tab, nth_error caches i = Some tab -> table Bs (avs sg) tab (base_c w i) (S i)) -> Forall2 (binds sg) bitss bss ->
       gat Bs (avs sg) R (fun j => 2 ^ Z.of_nat w * c j + match j with O => (2 ^ Z.of_nat (length caches) - 1) * (1 - 2 ^ Z.of_nat w) | S i => digit w rb t (nth i bss []) end)).
Proof.
  intros Hrb L Kc HC HBl. unfold msm_round.
  rewrite (nth_error_chunk bitss rb Hrb HBl), (nth_error_chunk caches (2 ^ w)).
  2:{ pose proof (Nat.pow_nonzero 2 w); lia. } 2:{ eapply Forall_impl; [|exact HC]. cbv beta; tauto. }
  eapply sound_bind; [apply (g_double_n p m lb Hp Hlb Hlb2 Hm H3 n k ch HN HK HE1 HE2 b Hb w curr Kc)|]. intros c1 Kc1.
  eapply sound_weaken; [apply (g_windows w rb t (combine caches bitss) c1 Kc1)|auto|cbv beta].
  { apply Forall_forall. intros [tab bl] Hin. apply in_combine_l in Hin. rewrite Forall_forall in HC. exact (HC tab Hin). }
  intros sg R _ HR HD Bs c bss HB Hc HT H2. destruct (mkds w rb t sg Bs bss caches bitss 0 L H2 HT) as (ds & D1 & D2).
  eapply gat_ext; [|apply (HR Bs _ ds HB (HD Bs c HB Hc) D1)]. intros j B _. right. cbv beta. rewrite D2. destruct j as [|i]; cbn [Nat.ltb Nat.leb].
  - change (2 ^ Z.of_nat 0) with 1. rewrite Z.mul_1_l. reflexivity.
  - rewrite Nat.sub_0_r. reflexivity.
Qed.
(** the accumulator after [t] rounds *)
Definition acc_c (w rb kk t : nat) (bss : list (list bool)) (j : nat) : Z :=
  match j with O => 2 ^ Z.of_nat kk - 1 | S i => zb (skipn (rb - w * t) (nth i bss [])) end.
Lemma acc_step w rb t bs : (w * (t + 1) <= rb)%nat -> length bs = rb \/ bs = [] ->
  2 ^ Z.of_nat w * zb (skipn (rb - w * t) bs) + digit w rb t bs = zb (skipn (rb - w * (t + 1)) bs).
Proof.
  intros Hle [L| ->].
  2:{ unfold digit. rewrite !skipn_nil, firstn_nil. change (zb []) with 0. lia. }
  unfold digit. set (lo := (rb - w * (t + 1))%nat). replace (rb - w * t)%nat with (lo + w)%nat by (unfold lo; lia).
  replace (lo + w - lo)%nat with w by lia.
  rewrite <- (firstn_skipn w (skipn lo bs)) at 2. rewrite zb_app. rewrite firstn_length, skipn_length.
  replace (Nat.min w (length bs - lo)) with w by (unfold lo; lia).
  replace (skipn w (skipn lo bs)) with (skipn (lo + w) bs); [ring|].
  clear. revert bs. induction lo as [|lo IH]; intros bs; [reflexivity|]. destruct bs; cbn [Nat.add skipn]; [now rewrite skipn_nil|apply IH].
Qed.
Lemma g_rounds w rb caches bitss : (0 < rb)%nat -> length caches = length bitss ->
  Forall (fun tab => Forall shape tab /\ length tab = (2 ^ w)%nat) caches -> Forall (fun bl => length bl = rb) bitss ->
  forall l t curr, shape curr -> (w * (t + l) <= rb)%nat ->
  sound (foldM (msm_round lb m ch w rb (concat caches) (concat bitss)) (seq t l) curr) shape
    (fun sg R => forall Bs bss, Forall onc Bs -> gat Bs (avs sg) curr (acc_c w rb (length caches) t bss) ->
       (forall i tab, nth_error caches i = Some tab -> table Bs (avs sg) tab (base_c w i) (S i)) -> Forall2 (binds sg) bitss bss ->
       gat Bs (avs sg) R (acc_c w rb (length caches) (t + l) bss)).
Proof.
  intros Hrb L HC HBl. induction l as [|l IH]; intros t curr Kc Hle; cbn [seq foldM].
  - rewrite Nat.add_0_r. apply sound_ret; auto.
  - eapply sound_bind; [apply (g_round w rb t caches bitss curr Hrb L Kc HC HBl)|]. intros c1 Kc1.
    eapply sound_weaken; [apply (IH (S t) c1 Kc1)|auto|cbv beta]; [lia|].
    intros sg R _ HR HD Bs bss HB Hc HT H2. replace (t + S l)%nat with (S t + l)%nat by lia. apply HR; auto.
    eapply gat_ext; [|apply (HD Bs _ bss HB Hc HT H2)]. intros j B _. right. cbv beta. destruct j as [|i]; unfold acc_c; [ring|].
    rewrite acc_step; [do 3 f_equal; lia|lia|].
    destruct (Nat.lt_ge_cases i (length bss)) as [Hi|Hi]; [|right; now apply nth_overflow]. left.
    assert (F : Forall (fun bs => length bs = rb) bss).
    { clear - HBl H2. revert HBl. induction H2 as [|x y l l' Hxy _ IH]; intros HF; constructor; inversion HF; subst; auto. symmetry. eapply binds_len; eauto. }
    rewrite Forall_forall in F. apply F. now apply nth_In.
Qed.

(** ** the bits of the scalars *)
Definition chunk_of (mb : nat) (sg : cell -> F p) (s : AV p) (t : Z) : Prop := 0 <= t < 2 ^ Z.of_nat mb /\ of_Z p t = avs sg s.
Lemma is_bit_bools (xs : list (F p)) : Forall is_bit xs -> exists bs, xs = map fbool bs.
Proof.
  induction 1 as [|x xs [->| ->] _ (bs & ->)]; [exists []; reflexivity|exists (false :: bs); reflexivity|exists (true :: bs); reflexivity].
Qed.
Lemma g_num_to_bits s mb : sound (num_to_bits s mb) (fun o => length o = mb /\ (0 < mb)%nat)
  (fun sg o => exists bs, binds sg o bs /\ chunk_of mb sg s (zb bs)).
Proof.
  eapply sound_weaken; [apply (num_to_bits_sound lb Hp s mb)|cbv beta; intros a [A B]; split; [exact A|lia]|].
  cbv beta. intros sg o [Lo _] [H1 H2]. apply is_bit_bools in H1 as [bs E]. exists bs. split; [exact E|].
  assert (Lb : length bs = mb) by (apply binds_len in E; lia). split; [rewrite <- Lb; apply zb_bound|].
  rewrite H2, E. replace (map fbool bs) with (map (of_Z p) (map Z.b2z bs)).
  - rewrite <- Lb. rewrite <- (map_length Z.b2z bs) at 1. rewrite dot_pows. reflexivity.
  - rewrite map_map. apply map_ext. intros []; reflexivity.
Qed.
Lemma g_scalar_bits mb pad zero (scalar : list (AV p)) :
  sound (bind (mapM (fun c => num_to_bits c mb) scalar) (fun chunks => ret (concat chunks ++ repeat zero pad)))
    (fun bl => length bl = (mb * length scalar + pad)%nat /\ (scalar <> [] -> 0 < mb)%nat)
    (fun sg bl => avs sg zero = F0 -> exists bs ts, binds sg bl bs /\ Forall2 (chunk_of mb sg) scalar ts /\ zb bs = undigits mb ts).
Proof.
  eapply sound_bind.
  - apply (sound_mapM lb _ (fun _ o => length o = mb /\ (0 < mb)%nat) (fun sg s o => exists bs, binds sg o bs /\ chunk_of mb sg s (zb bs))).
    intros s _. apply g_num_to_bits.
  - cbv beta. intros bls HL. apply sound_ret.
    + split.
      * rewrite app_length, repeat_length. f_equal. clear - HL. induction HL as [|x y l l' [E _] _ IH]; cbn [concat length]; [lia|]. rewrite app_length, IH, E. lia.
      * intros Ne. destruct HL as [|? ? ? ? [_ H] _]; [congruence|exact H].
    + intros sg H2 Hz.
      assert (G : exists bss, Forall2 (binds sg) bls bss /\ Forall2 (fun s bs => chunk_of mb sg s (zb bs)) scalar bss).
      { clear - H2. induction H2 as [|x y l l' (bs & B1 & B2) _ (bss & I1 & I2)]; [exists []; split; constructor|]. exists (bs :: bss). split; constructor; auto. }
      destruct G as (bss & G1 & G2). exists (concat bss ++ repeat false pad), (map zb bss).
      assert (LB : Forall (fun l => length l = mb) bss).
      { clear - HL G1. revert bss G1. induction HL as [|x y l l' [E _] _ IH]; intros bss G1; inversion G1; subst; constructor; auto. symmetry. eapply binds_len; eauto. }
      split; [|split].
      * unfold binds. rewrite !map_app, !concat_map. f_equal.
        -- f_equal. clear - G1. induction G1 as [|x y l l' E _ IH]; cbn; [reflexivity|]. now rewrite IH, E.
        -- clear - Hz. induction pad as [|pad IH]; cbn; [reflexivity|]. now rewrite IH, Hz.
      * clear - G2. induction G2; cbn; constructor; auto.
      * rewrite zb_app, zb_false, (zb_concat mb _ LB). lia.
Qed.
End Msm.
