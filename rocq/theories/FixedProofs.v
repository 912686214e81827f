(** Soundness of [fixed_base::scalar_multiply] (halo2-ecc/src/ecc/fixed_base.rs:24-108). *)
From Coq Require Import ZArith Znumtheory Lia List Bool Ring.
From Verif Require Import Field Spec Context ContextProofs Utils Logic Gate GateProofs ChainProofs IPProofs BitProofs PowProofs IPComp Derived Calc CalcH
  Range RangeProofs RangeProofs2 RangeProofs3 BigInt BigSpec BigNum BigPrims BigOps BigSel BigCmp BigSub BigCarry BigMod BigCrtNum BigCrt
  FpChip FpProofs FpProofs2 FpProofs3 FpField FpField2 FpField3 Bn254Primes PropsBigInt PropsFp EcGroup EccFacts SafeTypes Ecc EccProofs EccProofs2 EccProofs3 PropsEcc EcComb SafeProofs2 MsmProofs MsmProofs2 PropsMsm FixedBase.
Import ListNotations.
Local Open Scope Z_scope.


(** ** lists *)
Lemma Forall2_rev' {A B} (R : A -> B -> Prop) l l' : Forall2 R l l' -> Forall2 R (rev l) (rev l').
Proof. induction 1; cbn; [constructor|]. apply Forall2_app; auto. Qed.
Lemma combine_rev {A B} (l : list A) : forall (l' : list B), length l = length l' -> combine (rev l) (rev l') = rev (combine l l').
Proof.
  induction l as [|x l IH]; intros [|y l'] E; try discriminate; [reflexivity|]. injection E as E. cbn [rev combine]. rewrite <- IH by exact E.
  clear - E. assert (G : forall (a : list A) (a' : list B), length a = length a' -> combine (a ++ [x]) (a' ++ [y]) = combine a a' ++ [(x, y)]).
  { induction a as [|u a IH]; intros [|v a'] H; try discriminate; [reflexivity|]. injection H as H. cbn. now rewrite IH. }
  apply G. now rewrite !rev_length.
Qed.
Lemma nth_error_seq_map {A} (f : nat -> A) a l i : (i < l)%nat -> nth_error (map f (seq a l)) i = Some (f (a + i)%nat).
Proof.
  revert a i. induction l as [|l IH]; intros a i Hi; [lia|]. destruct i as [|i]; cbn [seq map nth_error]; [now rewrite Nat.add_0_r|].
  rewrite IH by lia. f_equal. f_equal. lia.
Qed.
(** chunking a list of full blocks followed by a non-empty, possibly shorter one *)
Lemma chunks_uneven {A} (c : nat) : forall (ll : list (list A)) (lst : list A), Forall (fun l => length l = c) ll -> (0 < length lst <= c)%nat -> chunks c (concat (ll ++ [lst])) = ll ++ [lst].
Proof.
  intros ll lst HL [H0 Hc]. assert (LC : forall l0 : list (list A), Forall (fun l => length l = c) l0 -> length (concat l0) = (length l0 * c)%nat).
  { intros l0 HL0. induction HL0 as [|l l1 E _ IH]; [reflexivity|]. cbn [concat length Nat.mul]. rewrite app_length, IH, E. reflexivity. }
  unfold chunks, ceil_div. rewrite concat_app, app_length, (LC _ HL). cbn [concat]. rewrite app_nil_r.
  assert (EQ : ((length ll * c + length lst + c - 1) / c)%nat = (length ll + 1)%nat).
  { replace (length ll * c + length lst + c - 1)%nat with ((length ll + 1) * c + (length lst - 1))%nat by lia. rewrite Nat.div_add_l by lia. rewrite Nat.div_small by lia. lia. }
  rewrite EQ, seq_app, map_app. cbn [seq map]. f_equal.
  - assert (G : forall (l0 pre : list (list A)) (tl : list A), Forall (fun l => length l = c) l0 -> Forall (fun l => length l = c) pre ->
       map (fun i => firstn c (skipn (i * c) (concat (pre ++ l0) ++ tl))) (seq (length pre) (length l0)) = l0).
    { clear ll lst HL H0 Hc EQ. induction l0 as [|l l0 IH]; intros pre tl Hl Hp'; [reflexivity|]. inversion Hl as [|? ? El Hl']; subst. cbn [length seq map]. f_equal.
      - rewrite concat_app, <- !app_assoc, skipn_app, (LC _ Hp'). rewrite (skipn_all2 (n:=(length pre * length l)%nat) (concat pre)) by (rewrite LC by exact Hp'; lia).
        rewrite Nat.sub_diag. cbn [skipn app concat]. rewrite <- !app_assoc. rewrite firstn_app, Nat.sub_diag. cbn [firstn]. now rewrite firstn_all, app_nil_r.
      - specialize (IH (pre ++ [l]) tl Hl'). rewrite <- app_assoc in IH. cbn [app] in IH. rewrite app_length in IH. cbn [length] in IH.
        replace (S (length pre)) with (length pre + 1)%nat by lia. apply IH. apply Forall_app. auto. }
    exact (G ll [] lst HL ltac:(constructor)).
  - cbn [Nat.add]. rewrite skipn_app, (LC _ HL), Nat.sub_diag. rewrite (skipn_all2 (n:=(length ll * c)%nat) (concat ll)) by (rewrite LC by exact HL; lia). cbn [skipn app].
    now rewrite firstn_all2 by lia.
Qed.
Fixpoint zsum (l : list Z) : Z := match l with [] => 0 | x :: l => x + zsum l end.
Lemma zsum_app l l' : zsum (l ++ l') = zsum l + zsum l'.
Proof. induction l as [|x l IH]; cbn; [reflexivity|]. rewrite IH. lia. Qed.
Lemma zsum_rev l : zsum (rev l) = zsum l.
Proof. induction l as [|x l IH]; cbn; [reflexivity|]. rewrite zsum_app, IH. cbn. lia. Qed.
Lemma skipn_add {A} a : forall (l : list A) c, skipn a (skipn c l) = skipn (c + a) l.
Proof. intros l c. revert l. induction c as [|c IH]; intros l; [reflexivity|]. destruct l; cbn [Nat.add skipn]; [now rewrite skipn_nil|apply IH]. Qed.
Lemma zb_windows w nw : forall l, (length l <= nw * w)%nat ->
  zb l = zsum (map (fun i => zb (firstn w (skipn (i * w) l)) * 2 ^ Z.of_nat (i * w)) (seq 0 nw)).
Proof.
  induction nw as [|nw IH]; intros l Hl.
  - destruct l; [reflexivity|cbn in Hl; lia].
  - cbn [seq map zsum].  cbn [Nat.mul skipn]. change (Z.of_nat 0) with 0. rewrite Z.pow_0_r, Z.mul_1_r.
    rewrite <- (firstn_skipn w l) at 1. rewrite zb_app. f_equal. rewrite (IH (skipn w l)) by (rewrite skipn_length; lia).
    assert (G : forall (s : list nat) K (f g : nat -> Z), (forall i, K * f i = g i) -> K * zsum (map f s) = zsum (map g s)).
    { intros s K f g Hfg. induction s as [|i s IHs]; cbn [map zsum]; [lia|].  rewrite <- IHs, <- Hfg. ring. }
    rewrite <- seq_shift, map_map. apply G. intros i. rewrite skipn_add. replace (w + i * w)%nat with (S i * w)%nat by lia.
    destruct (Nat.le_gt_cases w (length l)).
    + rewrite firstn_length_le by lia. replace (S i * w)%nat with (w + i * w)%nat by lia. rewrite Nat2Z.inj_add, Z.pow_add_r by lia. ring.
    + rewrite (skipn_all2 l) by nia. rewrite firstn_nil. change (zb []) with 0. ring.
Qed.
Lemma zb_zero_iff bs : zb bs = 0 <-> Forall (fun x => x = false) bs.
Proof.
  split.
  - induction bs as [|x bs IH]; intros E; constructor; unfold zb in *; cbn [map undigits] in E; pose proof (zb_bound bs) as B; unfold zb in B; change (2 ^ Z.of_nat 1) with 2 in E; destruct x; cbn [Z.b2z] in E; try lia; auto. apply IH. lia.
  - induction 1 as [|x bs -> _ IH]; [reflexivity|]. unfold zb in *. cbn [map undigits Z.b2z]. rewrite IH. lia.
Qed.
Section Msm.
Context (p m : positive) (lb : nat) (Hp : prime (Z.pos p)) (Hlb : (1 <= lb < 64)%nat) (Hlb2 : (2 * lb <= CAPACITY p)%nat) (Hm : prime (Z.pos m)) (H3 : 3 < Z.pos m).
Context (n k : nat) (ch : fpchip p) (HN : fpchip_new m n k = Some ch) (HK : fp_params (p:=p) lb m n k).
Notation M2 := (2 ^ Z.of_nat (bits (Z.pos m))).
Context (HE1 : (Nat.max (log2_ceil (Z.of_nat k) + 2 * n + 5) (2 * n + bit_length (Z.of_nat k)) + lb + 2 <= CAPACITY p)%nat)
  (HE2 : 64 * (M2 * M2) < 2 ^ Z.of_nat (n * k + NUM_BITS p)).
Context (b : F m) (Hb : b <> F0).
Notation ecpt := (ecpt p).
Notation at_pt := (at_pt (p:=p) m n).
Notation at_cmp := (at_cmp (p:=p) m n).
Notation shape := (shape (p:=p) n k).
Notation onc2 := (onc2 m b).
Notation onc := (onc m b).
Notation eadd := (eadd m).
Notation eneg := (eneg m).
Notation lcf := (lcf m).
Notation pt := (pt m).
Notation sound := (sound lb).
Let Hm1 : 1 < Z.pos m. Proof. lia. Qed.



Notation gat := (gat p m n).
Notation binds := (binds p).
(** the sum of fewer than [p] bits vanishes in the field only when all are zero *)
Definition cnt (bs : list bool) : Z := zsum (map Z.b2z bs).
Lemma fsum_bits (bs : list bool) : fsum (map (fbool (p:=p)) bs) = of_Z p (cnt bs).
Proof.
  unfold cnt. induction bs as [|x bs IH]; [reflexivity|]. cbn [map fsum zsum].  rewrite IH, of_Z_add. f_equal. destruct x; reflexivity.
Qed.
Lemma cnt_bound bs : 0 <= cnt bs <= Z.of_nat (length bs) /\ (cnt bs = 0 <-> zb bs = 0).
Proof.
  rewrite zb_zero_iff. unfold cnt. induction bs as [|x bs [B I]]; [cbn; split; [lia|split; auto]|]. cbn [map zsum length]. 
  split; [destruct x; cbn [Z.b2z]; lia|]. split; intros E.
  - constructor; [destruct x; cbn [Z.b2z] in E; [lia|reflexivity]|]. apply I. destruct x; cbn [Z.b2z] in E; lia.
  - inversion E; subst. apply I in H2. cbn [Z.b2z]. lia.
Qed.
(** table of a window with unit [u] (a multiple of basis point 1): entry [d > 0] is [d * u], entry 0 is [u] (a dummy) *)
Definition ftable (Bs : list pt) (e : env (p:=p)) (ds : list ecpt) (u : Z) : Prop :=
  forall d D, nth_error ds d = Some D -> gat Bs e D (fun j => (if Nat.eqb d 0 then u else Z.of_nat d * u) * unit_at 1 j).
Lemma g_fb_window curr cb : shape curr -> Forall shape (fst cb) -> length (fst cb) = (2 ^ length (snd cb))%nat -> Z.of_nat (length (snd cb)) < Z.pos p ->
  sound (fb_window lb m ch curr cb) shape
    (fun sg R => forall Bs c u bs, Forall onc Bs -> gat Bs (avs sg) curr c -> ftable Bs (avs sg) (fst cb) u -> binds sg (snd cb) bs ->
       gat Bs (avs sg) R (fun j => c j + zb bs * u * unit_at 1 j)).
Proof.
  intros Kc Kt Lt Hlt. destruct cb as [tab bl]. cbn [fst snd] in *. unfold fb_window. cbn [fst snd].
  eapply sound_bind; [apply (sum_sound lb)|]. intros sm _. eapply sound_bind; [apply (is_zero_sound lb Hp)|]. intros z _.
  eapply sound_bind; [apply (C56_select_from_bits_sound p m lb Hp Hlb Hlb2 H3 n k ch HN HE1 HE2 tab bl Kt)|]. intros add Ka.
  eapply sound_bind; [apply (C54_add_unequal_sound p m lb Hp Hlb Hlb2 Hm H3 n k ch HN HK HE1 HE2 (NonStrict curr) (NonStrict add) true Kc Ka)|]. intros s Ks.
  eapply sound_weaken; [apply (proj1 (C56_select p m lb Hp Hlb Hlb2 H3 n k HE1 HE2 curr s z Kc Ks))|auto|cbv beta].
  intros sg R _ HSel HAdd HFB HZ (xs & Fx & ES) Bs c u bs HB (x1 & y1 & A1 & E1) HT Hbs.
  assert (Exs : xs = map fbool bs).
  { unfold MsmProofs2.binds in Hbs. rewrite <- Hbs. clear - Fx. revert xs Fx. induction bl as [|a bl IH]; intros xs Fx; inversion Fx as [|? ? ? ? Q F']; subst; [reflexivity|].
    cbn [map]. f_equal; [exact Q|auto]. }
  rewrite Exs, fsum_bits in ES. pose proof (binds_len p sg bl bs Hbs) as Lb. destruct (cnt_bound bs) as [Bc Ic].
  pose proof (zb_bound bs) as Bd.
  assert (Lz : (Z.to_nat (zb bs) < length tab)%nat).
  { rewrite Lt, Lb. apply Nat2Z.inj_lt. rewrite Z2Nat.id by lia. rewrite Nat2Z.inj_pow. change (Z.of_nat 2) with 2. lia. }
  destruct (nth_error tab (Z.to_nat (zb bs))) as [D|] eqn:ED; [|apply nth_error_None in ED; lia].
  destruct (HT _ D ED) as (x2 & y2 & A2 & E2). pose proof (HFB bs D x2 y2 Hbs ED A2) as A2'.
  destruct (HAdd x1 y1 x2 y2 A1 A2' ltac:(discriminate)) as (_ & x3 & y3 & A3 & E3).
  destruct (HSel x1 y1 x3 y3 A1 A3) as [S1 S0]. rewrite ES in HZ.
  destruct (Z.eq_dec (zb bs) 0) as [Zb|Zb].
  - rewrite (proj2 Ic Zb) in HZ. change (of_Z p 0) with (F0 : F p) in HZ. rewrite (proj2 (Fis0_true _ F0) eq_refl) in HZ.
    exists x1, y1. split; [exact (S1 HZ)|]. rewrite <- E1. apply (lcf_ext m). intros j B _. right. rewrite Zb. ring.
  - assert (Nz : of_Z p (cnt bs) <> F0).
    { intros E. apply (f_equal val) in E. rewrite val_of_Z_small in E by lia. cbn in E. apply Zb, Ic. exact E. }
    apply Fis0_false in Nz. rewrite Nz in HZ. exists x3, y3. split; [exact (S0 HZ)|].
    rewrite (lcf_add m Hm H3 b Hb Bs HB c (fun j => zb bs * u * unit_at 1 j)), E1. rewrite <- E3. f_equal. rewrite <- E2. apply (lcf_ext m). intros j B _. right.
    destruct (Nat.eqb_spec (Z.to_nat (zb bs)) 0); [lia|]. rewrite Z2Nat.id by lia. reflexivity.
Qed.
Lemma g_fb_windows cbs : forall curr, shape curr ->
  Forall (fun cb => Forall shape (fst cb) /\ length (fst cb) = (2 ^ length (snd cb))%nat /\ Z.of_nat (length (snd cb)) < Z.pos p) cbs ->
  sound (foldM (fb_window lb m ch) cbs curr) shape
    (fun sg R => forall Bs c vs, Forall onc Bs -> gat Bs (avs sg) curr c ->
       Forall2 (fun cb v => exists u bs, ftable Bs (avs sg) (fst cb) u /\ binds sg (snd cb) bs /\ v = zb bs * u) cbs vs ->
       gat Bs (avs sg) R (fun j => c j + zsum vs * unit_at 1 j)).
Proof.
  induction cbs as [|cb cbs IH]; intros curr Kc HF; cbn [foldM].
  - apply sound_ret; auto. intros sg Bs c ds _ Hc H2. inversion H2. eapply gat_ext; [|exact Hc]. intros j B _. right. cbn. lia.
  - inversion HF as [|? ? (K1 & K2 & K3) HF']; subst. eapply sound_bind; [apply (g_fb_window curr cb Kc K1 K2 K3)|]. intros c1 Kc1.
    eapply sound_weaken; [apply (IH c1 Kc1 HF')|auto|cbv beta]. intros sg R _ HR HW Bs c vs HB Hc H2.
    inversion H2 as [|? v ? vs' (u & bs & T1 & T2 & T3) H2']; subst.
    eapply gat_ext; [|apply (HR Bs _ vs' HB (HW Bs c u bs HB Hc T1 T2) H2')]. intros j B _. right. cbn [zsum]. ring.
Qed.

(** ** the host-side tables *)
Lemma fb_steps_spec cn : forall c i g, onc g -> length (fst (fb_steps m cn (emul m c (emul m i g)) (emul m i g))) = cn /\
  (forall d, (d < cn)%nat -> nth_error (fst (fb_steps m cn (emul m c (emul m i g)) (emul m i g))) d = Some (emul m ((c + d) * i) g)) /\
  snd (fb_steps m cn (emul m c (emul m i g)) (emul m i g)) = emul m ((c + cn) * i) g.
Proof.
  induction cn as [|cn IH]; intros c i g O; cbn [fb_steps fst snd].
  - split; [reflexivity|]. split; [intros; lia|]. rewrite Nat.add_0_r. symmetry. now apply (emul_mul m Hm H3 b Hb).
  - assert (Oi : onc (emul m i g)) by now apply (emul_onc m Hm H3 b).
    assert (E : eadd (emul m c (emul m i g)) (emul m i g) = emul m (S c) (emul m i g)).
    { cbn [EcGroup.emul]. apply (eadd_comm m Hm H3 b); auto. now apply (emul_onc m Hm H3 b). }
    rewrite E. destruct (IH (S c) i g O) as (I1 & I2 & I3). split; [cbn [length fst]; f_equal; exact I1|]. split.
    + intros [|d] Hd; [cbn; rewrite Nat.add_0_r; f_equal; symmetry; now apply (emul_mul m Hm H3 b Hb)|]. cbn [nth_error]. rewrite I2 by lia. do 2 f_equal. lia.
    + rewrite I3. f_equal. lia.
Qed.
Definition fb_entry (w t d : nat) (g : pt) : pt := emul m ((if Nat.eqb d 0 then 1 else d) * 2 ^ (t * w)) g.
Lemma fb_tables_spec w tb g : onc g -> forall nw i : nat, (i + nw)%nat = ((tb + w - 1) / w)%nat -> (0 < w)%nat ->
  length (fb_tables m nw i w tb (emul m (2 ^ (i * w)) g)) = nw /\
  forall t tab, nth_error (fb_tables m nw i w tb (emul m (2 ^ (i * w)) g)) t = Some tab ->
    length tab = (2 ^ Nat.min w (tb - (i + t) * w))%nat /\ forall d D, nth_error tab d = Some D -> D = fb_entry w (i + t) d g.
Proof.
  intros O. induction nw as [|nw IH]; intros i Ei Hw; cbn [fb_tables].
  - split; [reflexivity|]. intros [|t] tab E; discriminate.
  - set (cn := (2 ^ Nat.min w (tb - i * w) - 1)%nat).
    assert (E1 : emul m (2 ^ (i * w)) g = emul m 1 (emul m (2 ^ (i * w)) g)) by (cbn [EcGroup.emul]; symmetry; apply (eadd_0_r m)).
    pose proof (fb_steps_spec cn 1 (2 ^ (i * w)) g O) as (S1 & S2 & S3). rewrite <- E1 in S1, S2, S3.
    assert (P2 : (0 < 2 ^ Nat.min w (tb - i * w))%nat) by (pose proof (Nat.pow_nonzero 2 (Nat.min w (tb - i * w))); lia).
    assert (T0 : forall tab, emul m (2 ^ (i * w)) g :: fst (fb_steps m cn (emul m (2 ^ (i * w)) g) (emul m (2 ^ (i * w)) g)) = tab ->
        length tab = (2 ^ Nat.min w (tb - (i + 0) * w))%nat /\ forall d D, nth_error tab d = Some D -> D = fb_entry w (i + 0) d g).
    { intros tab <-. rewrite Nat.add_0_r. split; [cbn [length]; rewrite S1; unfold cn; lia|]. intros [|d] D E.
      - injection E as <-. unfold fb_entry. cbn [Nat.eqb]. f_equal. lia.
      - cbn [nth_error] in E. assert (Hd : (d < cn)%nat) by (rewrite <- S1; apply nth_error_Some; congruence). rewrite S2 in E by exact Hd. injection E as <-. reflexivity. }
    destruct nw as [|nw].
    + cbn [fb_tables]. split; [reflexivity|]. intros [|t] tab E; [injection E as E; exact (T0 tab E)|destruct t; discriminate].
    + assert (F : (w <= tb - i * w)%nat).
      { pose proof (Nat.div_mod (tb + w - 1) w ltac:(lia)) as DM. pose proof (Nat.mod_upper_bound (tb + w - 1) w ltac:(lia)). rewrite <- Ei in DM. nia. }
      assert (E2 : snd (fb_steps m cn (emul m (2 ^ (i * w)) g) (emul m (2 ^ (i * w)) g)) = emul m (2 ^ (S i * w)) g).
      { rewrite S3. f_equal. unfold cn in *. rewrite Nat.min_l in * by exact F. replace (1 + (2 ^ w - 1))%nat with (2 ^ w)%nat by lia. rewrite <- Nat.pow_add_r. reflexivity. }
      rewrite E2. destruct (IH (S i) ltac:(lia) Hw) as [I1 I2]. split; [cbn [length]; now rewrite I1|].
      intros [|t] tab E; [injection E as E; exact (T0 tab E)|]. cbn [nth_error] in E. replace (i + S t)%nat with (S i + t)%nat by lia. exact (I2 t tab E).
Qed.

(** ** assembling *)
Lemma g_load_const_pt g : sound (load_const_pt m ch g) shape (fun sg P => at_pt (avs sg) P (fst (coords m g)) (snd (coords m g))).
Proof.
  unfold load_const_pt. pose proof (C55_assign_point p m lb Hp Hlb Hlb2 H3 n k ch HN HK HE1 HE2 b (fst (coords m g)) (snd (coords m g))) as (_ & _ & H & _). exact H.
Qed.
End Msm.
Lemma Forall2_nth_intro {A B} (R : A -> B -> Prop) l : forall l', length l = length l' ->
  (forall t x y, nth_error l t = Some x -> nth_error l' t = Some y -> R x y) -> Forall2 R l l'.
Proof.
  induction l as [|x l IH]; intros [|y l'] L H; try discriminate; constructor; [exact (H 0%nat x y eq_refl eq_refl)|].
  apply IH; [now injection L|]. intros t u v E1 E2. exact (H (S t) u v E1 E2).
Qed.
Lemma chunks_Forall2 {A B} (R : A -> B -> Prop) c l l' : Forall2 R l l' -> Forall2 (Forall2 R) (chunks c l) (chunks c l').
Proof.
  intros H. unfold chunks. rewrite (Forall2_len _ _ _ H). induction (seq 0 (ceil_div (length l') c)) as [|i s IH]; cbn; constructor; auto.
  apply Forall2_firstn', Forall2_skipn'. exact H.
Qed.
Lemma Forall2_combine {A B} (R : A -> B -> Prop) l l' : Forall2 R l l' -> Forall (fun xy => R (fst xy) (snd xy)) (combine l l').
Proof. induction 1; cbn; constructor; auto. Qed.
