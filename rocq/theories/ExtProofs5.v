(** Fp12Chip (FieldExt.v): scaling by Fp2, conjugation; Fp2 as an instance of the generic mul/divide. In terms of ExtSpec.v. [h : Prop] as in FpField.v. *)
From Coq Require Import ZArith Znumtheory Lia List Bool Ring.
From Verif Require Import Field Spec Context ContextProofs Utils Logic Gate GateProofs ChainProofs IPProofs BitProofs PowProofs IPComp Derived
  Range RangeProofs RangeProofs2 RangeProofs3 RegionGets Calc CalcH RegionPrev RegionLast BigPrims BigNum BigInt BigSpec BigOps BigSel BigCmp BigSub BigCarry BigMod BigCrtNum BigCrt FpChip FpProofs FpProofs2 FpProofs3 FpField FpField2 FpField3 FieldExt ExtSpec ExtProofs ExtProofs2 ExtProofs3 ExtProofs4.
Import ListNotations.
Local Open Scope Z_scope.

Section ExtProofs.
Context {p : positive}.
Notation Fp := (F p).
Notation AV := (AV p).
Notation crt := (crt p).
Notation vec := (list crt).
Variables (lb : nat) (m : positive).
Notation env := (env (p:=p)).
Notation hcalc := (hcalc lb).
Hypothesis Hp : prime (Z.pos p).
Hypothesis Hlb : (1 <= lb < 64)%nat.
Hypothesis Hlb2 : (2 * lb <= CAPACITY p)%nat.
Hypothesis Hm : 1 < Z.pos m.
Add Ring Fring : (F_ring p) (morphism (F_morph p), constants [Fcst]).
Add Ring Fringm : (F_ring m) (morphism (F_morph m), constants [Fcst]).
Variables (ch : fpchip p) (n k : nat).
Hypothesis HN : fpchip_new m n k = Some ch.
Hypothesis HK : fp_params (p:=p) lb m n k.
Notation mz := (Z.pos m).
Notation Fm := (F m).
Notation M2 := (2 ^ Z.of_nat (bits mz)).
Notation W := (2 ^ Z.of_nat (n * k + NUM_BITS p)).
Notation frep := (frep (p:=p) m n).
Notation fred := (fred (p:=p) m n).
Notation fcan := (fcan (p:=p) m n).
Notation isk := (isk k).
Notation lg := (log2_ceil (Z.of_nat k)).
Notation islk := (islk k).
Notation room := (room (p:=p) lb n k).
Notation visk := (visk k).
Notation vism := (vism n k).
Notation vrep := (vrep m n).
Notation vred := (vred m n).
Notation vcan := (vcan m n).
Notation G_mul := (g_mul_nc lb m Hp Hlb Hlb2 Hm ch n k HN HK).
Notation G_add := (g_add lb m Hlb Hlb2 n k).
Notation G_sub := (g_sub lb m Hlb Hlb2 n k).
Notation G_smul := (g_smul lb m Hlb Hlb2 n k).
Notation G_smul_add := (g_smul_add lb m Hlb Hlb2 n k).



Ltac inc1 := first [ assumption | apply incl_refl | (apply incl_appl; inc1) | (apply incl_appr; inc1) ].
Ltac inc := cbn [app]; first [ assumption | (unfold cpre, vpre; inc1) | (eapply cpre_incl; [eassumption|inc1]) | (eapply vpre_incl; [eassumption|inc1]) ].
Tactic Notation "nb" uconstr(lem) := eapply h_bind; [eapply lem; try inc; try eassumption|]; cbv beta; [..|let c := fresh "c" in let K := fresh "K" in intros c K; cbn [app]].
Ltac fwd1 :=
  match goal with
  | H : _ /\ _ |- _ => lazymatch type of H with (_ <= _ < _)%nat => fail | _ => destruct H end
  | A : fred ?h ?e ?c ?v |- _ => lazymatch goal with _ : frep h e c M2 v |- _ => fail | _ => pose proof (fred_frep lb m Hlb Hlb2 n h e c v A) end
  | H : forall h Ba Bb u v, frep h ?e ?a Ba u -> frep h ?e ?b Bb v -> _, A : frep ?h ?e ?a ?Ba ?u, B : frep ?h ?e ?b ?Bb ?v |- _ => specialize (H h Ba Bb u v A B); cbv beta in H
  | H : forall h Ba Bb u v, frep h ?e ?a Ba u -> frep h ?e ?a Bb v -> _, A : frep ?h ?e ?a ?Ba ?u |- _ => specialize (H h Ba Ba u u A A); cbv beta in H
  | H : forall h Ba u, frep h ?e ?a Ba u -> _, A : frep ?h ?e ?a ?Ba ?u |- _ => specialize (H h Ba u A); cbv beta in H
  end.
Ltac fwd := repeat fwd1.



Notation rep2 := (rep2 (p:=p) m n).
Notation red2 := (red2 (p:=p) m n).
(** ** Fp12Chip::fp2_mul_no_carry *)
Definition scl (u : list Fm) (y : x2 m) (i : nat) : Fm := (nth i u F0 * fst y - nth (i + 6) u F0 * snd y)%F.
Definition sch (u : list Fm) (y : x2 m) (i : nat) : Fm := (nth (i + 6) u F0 * fst y + nth i u F0 * snd y)%F.
Lemma x12_scale_formula u y : length u = 12%nat -> x12_scale u y = map (scl u y) (seq 0 6) ++ map (sch u y) (seq 0 6).
Proof.
  intros Hu. apply len12 in Hu as (u0&u1&u2&u3&u4&u5&u6&u7&u8&u9&u10&u11&->). destruct y as [y0 y1].
  unfold x12_scale, w_of, w_to, scl, sch. cbn [firstn skipn combine map app seq fst snd Nat.add nth x2_mul].
  repeat match goal with |- _ :: _ = _ :: _ => apply f_equal2 end; try reflexivity; ring.
Qed.
Lemma l12_fp2_mul_nc (L : list AV) (Pre : env -> Prop) (Hon : Prop) (a b : vec) ba bb : vpre L a -> vpre L b -> visk a ba -> visk b bb -> (Hon -> length a = 12%nat /\ length b = 2%nat) ->
  hcalc L Pre Hon (fp12_fp2_mul_no_carry ch a b) (fun o => length a = 12%nat /\ length b = 2%nat /\ length o = 12%nat /\ visk o (lg + ba + bb + 1))
    (fun e o => forall h Ba Bb u y, vrep h e a Ba u -> rep2 h e b Bb y -> vrep h e o (2 * (Ba * Bb)) (x12_scale u y)) vcells.
Proof.
  intros Ca Cb Ka Kb HL. unfold fp12_fp2_mul_no_carry.
  eapply h_assert_bind. { intros Hh _. destruct (HL Hh) as [-> _]. reflexivity. } intros La. apply Nat.eqb_eq in La.
  eapply h_assert_bind. { intros Hh _. destruct (HL Hh) as [_ ->]. reflexivity. } intros Lb. apply Nat.eqb_eq in Lb. cbv beta.
  apply len2 in Lb as (b0 & b1 & ->). apply vpre_cons in Cb as [Cb0 Cb1]. apply vpre_cons in Cb1 as [Cb1 _].
  unfold ExtProofs.visk in Kb. inversion Kb as [|? ? Kb0 Kb']; subst. inversion Kb' as [|? ? Kb1 _]; subst. clear Kb Kb'.
  do 2 (eapply h_lift_bind; [intros; cbn [nth_error]; eauto|intros ? E; cbn [nth_error] in E; injection E as <-]).
  assert (GET : forall i, (i < 12)%nat -> exists c, nth_error a i = Some c /\ islk c ba /\ cpre L c).
  { intros i Hi. destruct (nth_some a i ltac:(lia)) as [c E]. exists c. split; auto. split; [eapply visk_get; eauto|]. eapply in_vcells; eauto. }
  eapply h_bind; [apply (h_mapM lb L Pre Hon _ (fun _ c => islk c (lg + ba + bb + 1)) (fun e i c => forall h Ba Bb u y, vrep h e a Ba u -> rep2 h e [b0; b1] Bb y -> frep h e c (2 * (Ba * Bb)) (scl u y i)) ccells)|]; cbv beta.
  { intros i Hi. apply in_seq in Hi. destruct (GET i ltac:(lia)) as (c & E & Kc & Cc). destruct (GET (i + 6)%nat ltac:(lia)) as (c6 & E6 & Kc6 & Cc6). rewrite E, E6.
    do 2 (eapply h_lift_bind; [eauto|intros ? EQ; injection EQ as <-]).
    nb (G_mul). nb (G_mul).
    eapply h_post; [eapply G_sub; try inc; eauto| | |]; cbv beta.
    - intros o Ko. eapply (islk_le lb m Hlb Hlb2); eauto. lia.
    - intros e o _ [[HP R1] R2] R3 h Ba Bb u y Hu Hy. unfold rep2 in Hy. apply vrep2 in Hy as [Y0 Y1]. pose proof (vrep_get _ _ _ _ _ _ _ _ _ Hu E). pose proof (vrep_get _ _ _ _ _ _ _ _ _ Hu E6). fwd.
      unfold scl. eapply frep_eq; eauto; ring.
    - intros o _. apply incl_appl, incl_refl. }
  intros lo Hlo.
  eapply h_bind; [eapply h_sub; [apply (h_mapM lb L Pre Hon _ (fun _ c => islk c (lg + ba + bb + 1)) (fun e i c => forall h Ba Bb u y, vrep h e a Ba u -> rep2 h e [b0; b1] Bb y -> frep h e c (2 * (Ba * Bb)) (sch u y i)) ccells)|apply incl_appr, incl_refl|tauto|tauto]|]; cbv beta.
  { intros i Hi. apply in_seq in Hi. destruct (GET i ltac:(lia)) as (c & E & Kc & Cc). destruct (GET (i + 6)%nat ltac:(lia)) as (c6 & E6 & Kc6 & Cc6). rewrite E, E6.
    do 2 (eapply h_lift_bind; [eauto|intros ? EQ; injection EQ as <-]).
    nb (G_mul). nb (G_mul).
    eapply h_post; [eapply G_add; try inc; eauto| | |]; cbv beta.
    - intros o Ko. eapply (islk_le lb m Hlb Hlb2); eauto. lia.
    - intros e o _ [[HP R1] R2] R3 h Ba Bb u y Hu Hy. unfold rep2 in Hy. apply vrep2 in Hy as [Y0 Y1]. pose proof (vrep_get _ _ _ _ _ _ _ _ _ Hu E). pose proof (vrep_get _ _ _ _ _ _ _ _ _ Hu E6). fwd.
      unfold sch. eapply frep_eq; eauto; ring.
    - intros o _. apply incl_appl, incl_refl. }
  intros hi Hhi. apply h_ret.
  - split; auto. split; auto. split. { rewrite app_length. apply Forall2_len in Hlo, Hhi. rewrite seq_length in *. lia. }
    apply Forall_app. split; [clear - Hlo|clear - Hhi].
    + induction Hlo; constructor; auto.
    + induction Hhi; constructor; auto.
  - unfold vcells. rewrite flat_map_app. intros x Hx. rewrite !in_app_iff in *. tauto.
  - intros e [[HP R1] R2] h Ba Bb u y Hu Hy.
    assert (Lu : length u = 12%nat) by (rewrite <- La; symmetry; eapply (vrep_len lb m Hlb Hlb2); eauto).
    rewrite x12_scale_formula by auto. apply Forall2_app; apply F2_map_r.
    + clear - R1 Hu Hy. induction R1; constructor; eauto.
    + clear - R2 Hu Hy. induction R2; constructor; eauto.
Qed.
(** ** Fp12Chip::conjugate *)
Lemma x12_conj_formula (u : list Fm) : length u = 12%nat -> x12_conj u = map (fun ic : nat * Fm => if Nat.even (fst ic) then snd ic else (- snd ic)%F) (combine (seq 0 12) u).
Proof. intros Hu. apply len12 in Hu as (u0&u1&u2&u3&u4&u5&u6&u7&u8&u9&u10&u11&->). reflexivity. Qed.
Lemma l12_conjugate (L : list AV) (Pre : env -> Prop) (Hon : Prop) (a : vec) : vpre L a -> vism a -> (Hon -> length a = 12%nat /\ zcap (p:=p) n k) -> (Hon -> Pre hval -> exists u, vred True hval a u) ->
  hcalc L Pre Hon (fp12_conjugate lb ch a) (fun o => length a = 12%nat /\ length o = 12%nat /\ vism o) (fun e o => forall h u, vred h e a u -> vred h e o (x12_conj u)) vcells.
Proof.
  intros Ca Ka HL HH. unfold fp12_conjugate.
  eapply h_assert_bind. { intros Hh _. destruct (HL Hh) as [-> _]. reflexivity. } intros La. apply Nat.eqb_eq in La. rewrite La. cbv beta.
  unfold ExtProofs.vism in Ka. rewrite Forall_forall in Ka.
  eapply h_post; [apply (h_mapM lb L Pre Hon _ (fun _ c => isk c n) (fun e (ic : nat * crt) c => forall h x, fred h e (snd ic) x -> fred h e c (if Nat.even (fst ic) then x else - x)%F) ccells)| | |]; cbv beta.
  - intros [i c] Hic. pose proof (in_combine_r _ _ _ _ Hic) as Hc. cbn [fst snd]. destruct (Nat.even i).
    + apply h_ret; auto. intros x Hx. apply (vpre_in L a c); auto.
    + apply (f_negate lb m Hp Hlb Hlb2 Hm ch n k HN HK); auto.
      * intros x Hx. apply (vpre_in L a c); auto.
      * intros Hh. apply HL; auto.
      * intros Hh HP. destruct (HH Hh HP) as (v & Hv). eapply vred_in; eauto.
  - intros o Ho. split; auto. split. { apply Forall2_len in Ho. rewrite combine_length, seq_length in Ho. lia. }
    clear - Ho. unfold ExtProofs.vism. induction Ho; constructor; auto.
  - intros e o Ho _ R h u Hu. assert (Lu : length u = 12%nat) by (rewrite <- La; symmetry; eapply (vred_len lb m Hlb Hlb2); eauto). rewrite x12_conj_formula by auto.
    assert (G : forall s o, Forall2 (fun (ic : nat * crt) c => forall h x, fred h e (snd ic) x -> fred h e c (if Nat.even (fst ic) then x else - x)%F) (combine (seq s (length a)) a) o ->
      vred h e o (map (fun ic : nat * Fm => if Nat.even (fst ic) then snd ic else (- snd ic)%F) (combine (seq s (length a)) u))).
    { clear - Hu. induction Hu as [|c x a u Hc Hu IH]; intros s o R; cbn [length seq combine map] in *.
      - inversion R. constructor.
      - inversion R as [|? o1 ? o2 R1 R2]; subst. constructor; [|apply IH; auto]. cbn [fst snd] in *. apply R1; auto. }
    rewrite La in G. now apply (G 0%nat).
  - intros o _. apply incl_appl, incl_refl.
Qed.

(** ** Fp2 as an instance of the generic multiplication and division *)
Definition spec2 (u v : list Fm) : list Fm :=
  match u, v with [u0; u1], [v0; v1] => let r := x2_mul (u0, u1) (v0, v1) in [fst r; snd r] | _, _ => [F0; F0] end.
(** fields/mod.rs:229-230 [a_val * b_val.invert().unwrap_or_default()] at Fp2 ([x2_inv] maps 0 to 0) *)
Definition quot2 (u v : list Fm) : list Fm :=
  match u, v with [u0; u1], [v0; v1] => let r := x2_mul (u0, u1) (x2_inv (v0, v1)) in [fst r; snd r] | _, _ => [F0; F0] end.
(** fields/mod.rs:268-269 *)
Definition negquot2 (u v : list Fm) : list Fm :=
  match u, v with [u0; u1], [v0; v1] => let r := x2_mul (x2_opp (u0, u1)) (x2_inv (v0, v1)) in [fst r; snd r] | _, _ => [F0; F0] end.
Lemma fp2_Hmul bm : (lg + n + n + 1 <= bm)%nat -> forall L (Pre : env -> Prop) (Hon : Prop) (a b : vec), vpre L a -> vpre L b -> vism a -> vism b -> (Hon -> length a = 2%nat /\ length b = 2%nat) ->
  hcalc L Pre Hon (fp2_mul_no_carry ch a b) (fun o => length a = 2%nat /\ length b = 2%nat /\ length o = 2%nat /\ visk o bm)
    (fun e o => forall h u v, vred h e a u -> vred h e b v -> vrep h e o (2 * (M2 * M2)) (spec2 u v)) vcells.
Proof.
  intros Hb L Pre Hon a b Ca Cb Ka Kb HL.
  eapply h_post; [apply (l2_mul_nc lb m Hp Hlb Hlb2 Hm ch n k HN HK L Pre Hon a b n n Ca Cb); auto using vism_visk| | |]; cbv beta.
  - intros o (H1 & H2 & H3 & H4). split; auto. split; auto. split; auto. eapply (visk_le lb m Hlb Hlb2); eauto.
  - intros e o (H1 & H2 & _) _ R h u v Hu Hv.
    pose proof (vred_len lb m Hlb Hlb2 n _ _ _ _ Hu) as Lu. pose proof (vred_len lb m Hlb Hlb2 n _ _ _ _ Hv) as Lv. rewrite H1 in Lu. rewrite H2 in Lv. symmetry in Lu, Lv.
    apply len2 in Lu as (u0 & u1 & ->), Lv as (v0 & v1 & ->). apply (R h M2 M2 (u0, u1) (v0, v1)); now apply (vred_vrep lb m Hlb Hlb2).
  - intros o _. apply incl_appl, incl_refl.
Qed.
(** ** Fp12 *)
Lemma fp12_Hmul xi0 bm : - 2 ^ 63 < xi0 < 2 ^ 63 -> (lg + n + n + 9 + log2_ceil (Z.abs xi0) <= bm)%nat -> forall L (Pre : env -> Prop) (Hon : Prop) (a b : vec), vpre L a -> vpre L b -> vism a -> vism b -> (Hon -> length a = 12%nat /\ length b = 12%nat) ->
  hcalc L Pre Hon (fp12_mul_no_carry ch xi0 a b) (fun o => length a = 12%nat /\ length b = 12%nat /\ length o = 12%nat /\ visk o bm)
    (fun e o => forall h u v, vred h e a u -> vred h e b v -> vrep h e o ((10 * Z.abs xi0 + 12) * (M2 * M2)) (x12_mul xi0 u v)) vcells.
Proof.
  intros Hxi Hb L Pre Hon a b Ca Cb Ka Kb HL.
  eapply h_post; [apply (l12_mul_nc lb m Hp Hlb Hlb2 Hm ch n k HN HK L Pre Hon a b n n xi0 Ca Cb); auto using vism_visk| | |]; cbv beta.
  - intros o (H1 & H2 & H3 & H4). split; auto. split; auto. split; auto. eapply (visk_le lb m Hlb Hlb2); eauto.
  - intros e o (H1 & H2 & _) _ R h u v Hu Hv. apply (R h M2 M2); now apply (vred_vrep lb m Hlb Hlb2).
  - intros o _. apply incl_appl, incl_refl.
Qed.

(** ** the defaults [is_equal] and [load_private_reduced] at a vector *)
Lemma v_is_equal (L : list AV) (Pre : env -> Prop) (Hon : Prop) (a b : vec) : vpre L a -> vpre L b -> vism a -> vism b -> (Hon -> length a = length b /\ a <> []) ->
  (Hon -> Pre hval -> exists u v, vred True hval a u /\ vred True hval b v) ->
  hcalc L Pre Hon (vec_is_equal lb ch a b) (fun _ => length a = length b /\ a <> [])
    (fun e o => forall h u v, vred h e a u -> vred h e b v -> vcan h e a u /\ vcan h e b v /\ e o = fbool (veqb m u v)) one.
Proof.
  intros Ca Cb Ka Kb HL HH. unfold vec_is_equal.
  eapply h_bind; [apply (v_enforce lb m Hp Hlb Hlb2 Hm ch n k HN HK L Pre Hon a); auto|]. { intros Hh HP. destruct (HH Hh HP) as (u & v & ? & ?). eauto. }
  cbv beta. intros ? ->. cbn [app].
  eapply h_bind; [apply (v_enforce lb m Hp Hlb Hlb2 Hm ch n k HN HK L _ Hon b); auto|]. { cbv beta. intros Hh [HP _]. destruct (HH Hh HP) as (u & v & ? & ?). eauto. }
  cbv beta. intros ? ->. cbn [app].
  eapply h_post; [apply (v_is_equal_unenforced lb m Hp Hlb Hlb2 n k HK L _ Hon a b); auto|auto| |]; cbv beta.
  - intros e o _ [[HP R1] R2] R h u v Hu Hv. split; auto. split; auto. eapply R; eauto.
  - intros o _. apply incl_appl, incl_refl.
Qed.
Lemma v_load_private_reduced (L : list AV) (Pre : env -> Prop) (Hon : Prop) (a : list Fm) :
  hcalc L Pre Hon (vec_load_private_reduced lb m ch a) (fun o => length o = length a /\ vism o)
    (fun e o => exists v, length v = length a /\ (forall h : Prop, (h -> e = hval) -> vcan h e o v) /\ (e = hval -> v = a)) vcells.
Proof.
  unfold vec_load_private_reduced.
  eapply h_bind; [apply (v_load_private lb m Hp Hlb Hlb2 Hm ch n k HN HK)|]. cbv beta. intros c [Lc Kc].
  eapply h_post; [apply (v_enforce lb m Hp Hlb Hlb2 Hm ch n k HN HK _ _ Hon c); auto| | |]; cbv beta.
  - apply incl_appl, incl_refl.
  - intros Hh [HP (v & _ & R & _)]. exists v. apply R; auto.
  - intros o ->. auto.
  - intros e o -> [HP (v & H1 & R & H2)] RE. exists v. split; auto.
  - intros o ->. apply incl_appr, incl_appl, incl_refl.
Qed.
End ExtProofs.
