(** Fp12Chip (FieldExt.v) in terms of ExtSpec.v. [h : Prop] as in FpField.v. *)
From Coq Require Import ZArith Znumtheory Lia List Bool Ring.
From Verif Require Import Field Spec Context ContextProofs Utils Logic Gate GateProofs ChainProofs IPProofs BitProofs PowProofs IPComp Derived
  Range RangeProofs RangeProofs2 RangeProofs3 RegionGets Calc CalcH RegionPrev RegionLast BigPrims BigNum BigInt BigSpec BigOps BigSel BigCmp BigSub BigCarry BigMod BigCrtNum BigCrt FpChip FpProofs FpProofs2 FpProofs3 FpField FpField2 FpField3 FieldExt ExtSpec ExtProofs ExtProofs2 ExtProofs3.
Import ListNotations.
Local Open Scope Z_scope.

Lemma nth_error_seq len i : (i < len)%nat -> nth_error (seq 0 len) i = Some i.
Proof.
  intros H. assert (G : forall s len i, (i < len)%nat -> nth_error (seq s len) i = Some (s + i)%nat).
  { clear. intros s len. revert s. induction len as [|len IH]; intros s [|i] H; try lia; cbn [seq nth_error]; [f_equal; lia|]. rewrite IH by lia. f_equal. lia. }
  now rewrite G.
Qed.
Lemma F2_seq {B} (P : nat -> B -> Prop) len l : Forall2 P (seq 0 len) l -> length l = len /\ forall i y, nth_error l i = Some y -> P i y.
Proof.
  intros H. assert (HL : length l = len) by (apply Forall2_len in H; rewrite seq_length in H; auto). split; auto. intros i y Hy.
  eapply F2_nth; [exact H| |exact Hy]. apply nth_error_seq. rewrite <- HL. apply nth_error_Some. congruence.
Qed.
Lemma nth_some {A} (l : list A) i : (i < length l)%nat -> exists x, nth_error l i = Some x.
Proof. intros H. destruct (nth_error l i) eqn:E; eauto. apply nth_error_None in E. lia. Qed.
Lemma cnt_FL : forall i, (i < 5)%nat -> cnt FL i = S i /\ cnt FL (i + 6) = (5 - i)%nat.
Proof. intros i Hi. do 5 (destruct i as [|i]; [split; reflexivity|]). lia. Qed.
Lemma cnt_FL6 : forall i, (i < 11)%nat -> (cnt FL i <= 6)%nat.
Proof. intros i Hi. do 11 (destruct i as [|i]; [vm_compute; lia|]). lia. Qed.

Section ExtProofs.
Context {p : positive}.
Notation Fp := (F p).
Notation AV := (AV p).
Notation crt := (crt p).
Notation vec := (list crt).
Variables (lb : nat) (m : positive).
Notation env := (env (p:=p)).
Notation hcalc := (hcalc lb).
Hypothesis Hp : prime (Z.pos p).
Hypothesis Hlb : (1 <= lb < 64)%nat.
Hypothesis Hlb2 : (2 * lb <= CAPACITY p)%nat.
Hypothesis Hm : 1 < Z.pos m.
Add Ring Fring : (F_ring p) (morphism (F_morph p), constants [Fcst]).
Add Ring Fringm : (F_ring m) (morphism (F_morph m), constants [Fcst]).
Variables (ch : fpchip p) (n k : nat).
Hypothesis HN : fpchip_new m n k = Some ch.
Hypothesis HK : fp_params (p:=p) lb m n k.
Notation mz := (Z.pos m).
Notation Fm := (F m).
Notation M2 := (2 ^ Z.of_nat (bits mz)).
Notation W := (2 ^ Z.of_nat (n * k + NUM_BITS p)).
Notation frep := (frep (p:=p) m n).
Notation fred := (fred (p:=p) m n).
Notation fcan := (fcan (p:=p) m n).
Notation isk := (isk k).
Notation lg := (log2_ceil (Z.of_nat k)).
Notation islk := (islk k).
Notation room := (room (p:=p) lb n k).
Notation visk := (visk k).
Notation vism := (vism n k).
Notation vrep := (vrep m n).
Notation vred := (vred m n).
Notation vcan := (vcan m n).
Notation G_mul := (g_mul_nc lb m Hp Hlb Hlb2 Hm ch n k HN HK).
Notation G_add := (g_add lb m Hlb Hlb2 n k).
Notation G_sub := (g_sub lb m Hlb Hlb2 n k).
Notation G_smul := (g_smul lb m Hlb Hlb2 n k).
Notation G_smul_add := (g_smul_add lb m Hlb Hlb2 n k).



Ltac inc1 := first [ assumption | apply incl_refl | (apply incl_appl; inc1) | (apply incl_appr; inc1) ].
Ltac inc := cbn [app]; first [ assumption | (unfold cpre, vpre; inc1) | (eapply cpre_incl; [eassumption|inc1]) | (eapply vpre_incl; [eassumption|inc1]) ].
Tactic Notation "nb" uconstr(lem) := eapply h_bind; [eapply lem; try inc; try eassumption|]; cbv beta; [..|let c := fresh "c" in let K := fresh "K" in intros c K; cbn [app]].
Ltac fwd1 :=
  match goal with
  | H : _ /\ _ |- _ => lazymatch type of H with (_ <= _ < _)%nat => fail | _ => destruct H end
  | A : fred ?h ?e ?c ?v |- _ => lazymatch goal with _ : frep h e c M2 v |- _ => fail | _ => pose proof (fred_frep lb m Hlb Hlb2 n h e c v A) end
  | H : forall h Ba Bb u v, frep h ?e ?a Ba u -> frep h ?e ?b Bb v -> _, A : frep ?h ?e ?a ?Ba ?u, B : frep ?h ?e ?b ?Bb ?v |- _ => specialize (H h Ba Bb u v A B); cbv beta in H
  | H : forall h Ba Bb u v, frep h ?e ?a Ba u -> frep h ?e ?a Bb v -> _, A : frep ?h ?e ?a ?Ba ?u |- _ => specialize (H h Ba Ba u u A A); cbv beta in H
  | H : forall h Ba u, frep h ?e ?a Ba u -> _, A : frep ?h ?e ?a ?Ba ?u |- _ => specialize (H h Ba u A); cbv beta in H
  end.
Ltac fwd := repeat fwd1.


Definition fuv (u v : list Fm) (ou ov i j : nat) : Fm := (nth (i + ou) u F0 * nth (j + ov) v F0)%F.
(** the polynomial product before reduction: [D_t + S_t u] is its coefficient of [w^t] *)
Definition Dv (u v : list Fm) (t : nat) : Fm := (psum m (fuv u v 0 0) FL t - psum m (fuv u v 6 6) FL t)%F.
Definition Sv (u v : list Fm) (t : nat) : Fm := (psum m (fuv u v 0 6) FL t + psum m (fuv u v 6 0) FL t)%F.
Definition lov (xi0 : Z) u v i : Fm := if Nat.ltb i 5 then (Dv u v (i + 6) * of_Z m xi0 + Dv u v i - Sv u v (i + 6))%F else Dv u v i.
Definition hiv (xi0 : Z) u v i : Fm := if Nat.ltb i 5 then (Sv u v (i + 6) * of_Z m xi0 + (Sv u v i + Dv u v (i + 6)))%F else Sv u v i.
Lemma x12_formula xi0 u v : length u = 12%nat -> length v = 12%nat -> x12_mul xi0 u v = map (lov xi0 u v) (seq 0 6) ++ map (hiv xi0 u v) (seq 0 6).
Proof.
  intros Hu Hv. apply len12 in Hu as (u0&u1&u2&u3&u4&u5&u6&u7&u8&u9&u10&u11&->), Hv as (v0&v1&v2&v3&v4&v5&v6&v7&v8&v9&v10&v11&->).
  unfold x12_mul, w_mul, pred6, w_of, w_to, lov, hiv, Dv, Sv, psum, FL, fuv, xi.
  cbn [firstn skipn combine pmul padd map app seq Nat.ltb Nat.leb list_prod fold_left fst snd Nat.eqb Nat.add nth x2_mul x2_add x2_0].
  unfold x2_mul, x2_add, x2_0. cbn [fst snd].
  repeat match goal with |- _ :: _ = _ :: _ => apply f_equal2 end; try reflexivity; ring.
Qed.
Lemma vrep_get h e (a : vec) B u i c : vrep h e a B u -> nth_error a i = Some c -> frep h e c B (nth i u F0).
Proof. intros H. revert i. induction H; intros [|i]; cbn [nth_error nth]; try discriminate; [now intros [= <-]|apply IHForall2]. Qed.
Lemma visk_get (a : vec) b i c : visk a b -> nth_error a i = Some c -> islk c b.
Proof. intros H E. unfold ExtProofs.visk in H. rewrite Forall_forall in H. eapply H, nth_error_In; eauto. Qed.

Section Mul12.
Variables (L : list AV) (Pre : env -> Prop) (Hon : Prop) (a b : vec) (ba bb : nat) (xi0 : Z).
Hypothesis Ca : vpre L a. Hypothesis Cb : vpre L b. Hypothesis Ka : visk a ba. Hypothesis Kb : visk b bb.
Hypothesis La : length a = 12%nat. Hypothesis Lb : length b = 12%nat.
Hypothesis Hxi : - 2 ^ 63 < xi0 < 2 ^ 63.
Notation st4 := (vec * vec * vec * vec)%type.
Definition st4cells (st : st4) : list AV := let '(x00, x01, x10, x11) := st in vcells x00 ++ vcells x01 ++ vcells x10 ++ vcells x11.
Notation b0 := (lg + ba + bb)%nat.
Definition I12 (done : list (nat * nat)) (st : st4) : Prop :=
  let '(x00, x01, x10, x11) := st in accI k b0 done x00 /\ accI k b0 done x01 /\ accI k b0 done x10 /\ accI k b0 done x11.
Definition J12 (e : env) (done : list (nat * nat)) (st : st4) : Prop :=
  let '(x00, x01, x10, x11) := st in forall h Ba Bb u v, vrep h e a Ba u -> vrep h e b Bb v ->
    accJ m n h e done x00 (fuv u v 0 0) (Ba * Bb) /\ accJ m n h e done x01 (fuv u v 0 6) (Ba * Bb) /\
    accJ m n h e done x10 (fuv u v 6 0) (Ba * Bb) /\ accJ m n h e done x11 (fuv u v 6 6) (Ba * Bb).
Notation A_add := (l_acc_add lb m Hlb Hlb2 n k).
Lemma accI_nil b1 : accI (p:=p) k b1 [] [].
Proof. split; auto. intros t c E. destruct t; discriminate. Qed.
Lemma accJ_nil h e f B : accJ (p:=p) m n h e [] [] f B.
Proof. intros t c E. destruct t; discriminate. Qed.
Lemma l12_loop : hcalc L Pre Hon (foldM (fp12_step ch a b) FL ([], [], [], [])) (I12 FL) (fun e => J12 e FL) st4cells.
Proof.
  apply (h_foldM lb L Pre Hon (fp12_step ch a b) I12 J12 st4cells).
  2:{ split; [|split; [|split]]; apply accI_nil. }
  2:{ intros e _ h Ba Bb u v _ _. split; [|split; [|split]]; apply accJ_nil. }
  2:{ intros x []. }
  intros done [i j] rest [[[x00 x01] x10] x11] E (I00 & I01 & I10 & I11). destruct (FL_step _ _ _ _ E) as (Hi & Hj & Hij).
  unfold fp12_step. cbn [fst snd].
  destruct (nth_some a i ltac:(lia)) as [ai Eai]. destruct (nth_some a (i + 6) ltac:(lia)) as [ai6 Eai6].
  destruct (nth_some b j ltac:(lia)) as [bj Ebj]. destruct (nth_some b (j + 6) ltac:(lia)) as [bj6 Ebj6].
  rewrite Eai, Eai6, Ebj, Ebj6.
  do 4 (eapply h_lift_bind; [eauto|intros ? EQ; injection EQ as <-]).
  pose proof (in_vcells _ _ _ _ Eai Ca) as C1. pose proof (in_vcells _ _ _ _ Eai6 Ca) as C2. pose proof (in_vcells _ _ _ _ Ebj Cb) as C3. pose proof (in_vcells _ _ _ _ Ebj6 Cb) as C4.
  pose proof (visk_get _ _ _ _ Ka Eai) as K1. pose proof (visk_get _ _ _ _ Ka Eai6) as K2. pose proof (visk_get _ _ _ _ Kb Ebj) as K3. pose proof (visk_get _ _ _ _ Kb Ebj6) as K4.
  assert (X00 : vpre (st4cells (x00, x01, x10, x11) ++ L) x00) by (unfold st4cells, vpre; inc1).
  assert (X01 : vpre (st4cells (x00, x01, x10, x11) ++ L) x01) by (unfold st4cells, vpre; rewrite <- !app_assoc; inc1).
  assert (X10 : vpre (st4cells (x00, x01, x10, x11) ++ L) x10) by (unfold st4cells, vpre; rewrite <- !app_assoc; inc1).
  assert (X11 : vpre (st4cells (x00, x01, x10, x11) ++ L) x11) by (unfold st4cells, vpre; rewrite <- !app_assoc; inc1).
  set (L0 := st4cells (x00, x01, x10, x11) ++ L) in *. assert (HL0 : incl L L0) by (unfold L0; inc1).
  apply (fun H => cpre_incl _ _ _ H HL0) in C1, C2, C3, C4. clearbody L0.
  nb (G_mul). nb (G_mul). nb (G_mul). nb (G_mul).
  rewrite (proj1 I00). destruct Hij as [Hij|[Hij H0]].
  - rewrite (proj2 (Nat.ltb_lt _ _) Hij).
    nb (A_add). nb (A_add). nb (A_add). nb (A_add).
    apply h_ret; [split; [|split; [|split]]; assumption| |].
    + unfold st4cells. intros x Hx. repeat (apply in_app_or in Hx as [Hx|Hx]); repeat (apply in_or_app; (left; exact Hx) || right).
    + intros e HP h Ba Bb u v Hu Hv. destruct HP as [[[[[[[[[HP HJ] R1] R2] R3] R4] R5] R6] R7] R8].
      destruct (HJ h Ba Bb u v Hu Hv) as (J1 & J2 & J3 & J4).
      pose proof (vrep_get _ _ _ _ _ _ _ Hu Eai). pose proof (vrep_get _ _ _ _ _ _ _ Hu Eai6). pose proof (vrep_get _ _ _ _ _ _ _ Hv Ebj). pose proof (vrep_get _ _ _ _ _ _ _ Hv Ebj6).
      split; [apply R5|split; [apply R6|split; [apply R7|apply R8]]]; auto; unfold fuv; rewrite ?Nat.add_0_r; eauto.
  - destruct (Nat.ltb_spec (i + j) (plen done)); [lia|].
    apply h_ret; [split; [|split; [|split]]; apply (acc_push lb m Hlb Hlb2); auto| |].
    + unfold st4cells. intros x Hx.
      assert (Q : forall (y : vec) (c : crt), In x (vcells (y ++ [c])) -> In x (vcells y) \/ In x (ccells c)).
      { intros y cc Hy. unfold vcells in Hy. rewrite flat_map_app in Hy. apply in_app_or in Hy as [Hy|Hy]; auto. cbn [flat_map] in Hy. rewrite app_nil_r in Hy. auto. }
      repeat (apply in_app_or in Hx as [Hx|Hx]); apply Q in Hx as [Hx|Hx]; try (apply X00 in Hx || apply X01 in Hx || apply X10 in Hx || apply X11 in Hx); rewrite ?in_app_iff; tauto.
    + intros e HP h Ba Bb u v Hu Hv. destruct HP as [[[[[HP HJ] R1] R2] R3] R4].
      destruct (HJ h Ba Bb u v Hu Hv) as (J1 & J2 & J3 & J4).
      pose proof (vrep_get _ _ _ _ _ _ _ Hu Eai). pose proof (vrep_get _ _ _ _ _ _ _ Hu Eai6). pose proof (vrep_get _ _ _ _ _ _ _ Hv Ebj). pose proof (vrep_get _ _ _ _ _ _ _ Hv Ebj6).
      split; [|split; [|split]]; eapply acc_pushJ; eauto; unfold fuv; rewrite ?Nat.add_0_r; eauto.
Qed.

Definition pcells (ds : crt * crt) : list AV := ccells (fst ds) ++ ccells (snd ds).
Notation bd := (b0 + 7)%nat.
Notation bo := (b0 + 9 + log2_ceil (Z.abs xi0))%nat.
Definition rab (e : env) (P : Prop -> Z -> list Fm -> list Fm -> Prop) : Prop := forall h Ba Bb u v, vrep h e a Ba u -> vrep h e b Bb v -> P h (Ba * Bb) u v.
Lemma l12_mid x00 x01 x10 x11 (Pre' : env -> Prop) (L' : list AV) : incl (st4cells (x00, x01, x10, x11)) L' -> I12 FL (x00, x01, x10, x11) -> (forall e, Pre' e -> J12 e FL (x00, x01, x10, x11)) ->
  hcalc L' Pre' Hon (mapM (fun i =>
      bind (lift (nth_error x00 i)) (fun y00 => bind (lift (nth_error x11 i)) (fun y11 => bind (fp_sub_no_carry y00 y11) (fun d =>
      bind (lift (nth_error x01 i)) (fun y01 => bind (lift (nth_error x10 i)) (fun y10 => bind (fp_add_no_carry y01 y10) (fun s => ret (d, s)))))))) (seq 0 11))
    (Forall2 (fun _ ds => islk (fst ds) bd /\ islk (snd ds) bd) (seq 0 11))
    (fun e ms => Forall2 (fun i ds => rab e (fun h B u v => frep h e (fst ds) (2 * Z.of_nat (cnt FL i) * B) (Dv u v i) /\ frep h e (snd ds) (2 * Z.of_nat (cnt FL i) * B) (Sv u v i))) (seq 0 11) ms)
    (fun ms => flat_map pcells ms).
Proof.
  intros HC (I00 & I01 & I10 & I11) HJ.
  apply (h_mapM lb L' Pre' Hon _ (fun _ ds => islk (fst ds) bd /\ islk (snd ds) bd) (fun e i ds => rab e (fun h B u v => frep h e (fst ds) (2 * Z.of_nat (cnt FL i) * B) (Dv u v i) /\ frep h e (snd ds) (2 * Z.of_nat (cnt FL i) * B) (Sv u v i))) pcells).
  intros i Hi. apply in_seq in Hi. pose proof (cnt_FL6 i ltac:(lia)) as Hc6.
  assert (HPL : plen FL = 11%nat) by reflexivity.
  destruct (nth_some x00 i ltac:(rewrite (proj1 I00); lia)) as [y00 E00]. destruct (nth_some x01 i ltac:(rewrite (proj1 I01); lia)) as [y01 E01].
  destruct (nth_some x10 i ltac:(rewrite (proj1 I10); lia)) as [y10 E10]. destruct (nth_some x11 i ltac:(rewrite (proj1 I11); lia)) as [y11 E11].
  rewrite E00, E01, E10, E11.
  pose proof (proj2 I00 _ _ E00) as K00. pose proof (proj2 I01 _ _ E01) as K01. pose proof (proj2 I10 _ _ E10) as K10. pose proof (proj2 I11 _ _ E11) as K11.
  unfold st4cells in HC.
  assert (C00 : cpre L' y00) by (apply (in_vcells _ _ _ _ E00); intros x Hx; apply HC; rewrite !in_app_iff; tauto).
  assert (C01 : cpre L' y01) by (apply (in_vcells _ _ _ _ E01); intros x Hx; apply HC; rewrite !in_app_iff; tauto).
  assert (C10 : cpre L' y10) by (apply (in_vcells _ _ _ _ E10); intros x Hx; apply HC; rewrite !in_app_iff; tauto).
  assert (C11 : cpre L' y11) by (apply (in_vcells _ _ _ _ E11); intros x Hx; apply HC; rewrite !in_app_iff; tauto).
  do 2 (eapply h_lift_bind; [eauto|intros ? EQ; injection EQ as <-]).
  nb (G_sub).
  do 2 (eapply h_lift_bind; [eauto|intros ? EQ; injection EQ as <-]).
  nb (G_add). apply h_ret; cbn [fst snd].
  - split; eapply (islk_le lb m Hlb Hlb2); eauto; lia.
  - unfold pcells. cbn [fst snd]. intros x Hx. rewrite !in_app_iff in *. tauto.
  - intros e [[HP R1] R2] h Ba Bb u v Hu Hv. destruct (HJ e HP h Ba Bb u v Hu Hv) as (J1 & J2 & J3 & J4).
    specialize (J1 _ _ E00). specialize (J2 _ _ E01). specialize (J3 _ _ E10). specialize (J4 _ _ E11).
    split; eapply frep_eq; eauto; ring.
Qed.
Lemma l12_out (ms : list (crt * crt)) (Pre' : env -> Prop) (L' : list AV) : incl (flat_map pcells ms) L' -> Forall2 (fun _ ds => islk (fst ds) bd /\ islk (snd ds) bd) (seq 0 11) ms ->
  (forall e, Pre' e -> Forall2 (fun i ds => rab e (fun h B u v => frep h e (fst ds) (2 * Z.of_nat (cnt FL i) * B) (Dv u v i) /\ frep h e (snd ds) (2 * Z.of_nat (cnt FL i) * B) (Sv u v i))) (seq 0 11) ms) ->
  hcalc L' Pre' Hon (bind (mapM (fun i =>
                if Nat.ltb i 5 then
                  bind (lift (nth_error (map fst ms) (i + 6))) (fun d6 => bind (lift (nth_error (map fst ms) i)) (fun d => bind (lift (nth_error (map snd ms) (i + 6))) (fun s6 =>
                  bind (fp_scalar_mul_and_add_no_carry d6 d xi0) (fun c => fp_sub_no_carry c s6))))
                else lift (nth_error (map fst ms) i)) (seq 0 6)) (fun lo => bind (mapM (fun i =>
                if Nat.ltb i 5 then
                  bind (lift (nth_error (map snd ms) i)) (fun s => bind (lift (nth_error (map fst ms) (i + 6))) (fun d6 => bind (lift (nth_error (map snd ms) (i + 6))) (fun s6 =>
                  bind (fp_add_no_carry s d6) (fun c => fp_scalar_mul_and_add_no_carry s6 c xi0))))
                else lift (nth_error (map snd ms) i)) (seq 0 6)) (fun hi => ret (lo ++ hi))))
    (fun o => length o = 12%nat /\ visk o bo)
    (fun e o => rab e (fun h B u v => vrep h e o ((10 * Z.abs xi0 + 12) * B) (x12_mul xi0 u v))) vcells.
Proof.
  intros HC HKs HR.
  assert (Lm : length ms = 11%nat) by (apply F2_seq in HKs; tauto).
  assert (GET : forall i, (i < 11)%nat -> exists d s, nth_error (map fst ms) i = Some d /\ nth_error (map snd ms) i = Some s /\ islk d bd /\ islk s bd /\ cpre L' d /\ cpre L' s /\
     forall e, Pre' e -> rab e (fun h B u v => frep h e d (2 * Z.of_nat (cnt FL i) * B) (Dv u v i) /\ frep h e s (2 * Z.of_nat (cnt FL i) * B) (Sv u v i))).
  { intros i Hi. destruct (nth_some ms i ltac:(lia)) as [[d s] E]. exists d, s. rewrite !(map_nth_error _ _ _ E). cbn [fst snd]. split; auto. split; auto.
    destruct (proj2 (F2_seq _ _ _ HKs) _ _ E) as [H1 H2]. cbn [fst snd] in *. split; auto. split; auto.
    assert (HI : incl (pcells (d, s)) L'). { intros x Hx. apply HC, in_flat_map. exists (d, s). split; auto. eapply nth_error_In; eauto. }
    split; [intros x Hx; apply HI, in_or_app; auto|]. split; [intros x Hx; apply HI, in_or_app; auto|].
    intros e HP. apply (proj2 (F2_seq _ _ _ (HR e HP)) _ _ E). }
  assert (POS : forall e h Ba Bb u v, vrep h e a Ba u -> vrep h e b Bb v -> 0 <= Ba * Bb).
  { intros e h Ba Bb u v Hu Hv. destruct (nth_some a 0 ltac:(lia)) as [a0 E0]. destruct (nth_some b 0 ltac:(lia)) as [b00 E1].
    pose proof (frep_pos lb m Hlb Hlb2 n h e a0 Ba (nth 0 u F0) (vrep_get _ _ _ _ _ _ _ Hu E0)). pose proof (frep_pos lb m Hlb Hlb2 n h e b00 Bb (nth 0 v F0) (vrep_get _ _ _ _ _ _ _ Hv E1)). nia. }
  assert (HB6 : forall i B, (i < 5)%nat -> 0 <= B -> 2 * Z.of_nat (cnt FL (i + 6)) * B * Z.abs xi0 + 2 * Z.of_nat (cnt FL i) * B + 2 * Z.of_nat (cnt FL (i + 6)) * B <= (10 * Z.abs xi0 + 12) * B).
  { intros i B Hi HB. destruct (cnt_FL i Hi) as [-> ->]. replace (Z.of_nat (5 - i)) with (5 - Z.of_nat i) by lia. replace (Z.of_nat (S i)) with (Z.succ (Z.of_nat i)) by lia. assert (0 <= B * Z.abs xi0) by nia. set (z := Z.of_nat i). assert (0 <= z) by lia. clearbody z. pose proof (Z.abs_nonneg xi0). set (w := B * Z.abs xi0) in *. assert (0 <= z * w) by (apply Z.mul_nonneg_nonneg; auto). replace (2 * (5 - z) * B * Z.abs xi0 + 2 * Z.succ z * B + 2 * (5 - z) * B) with (10 * w - 2 * (z * w) + 12 * B) by (unfold w; ring). replace ((10 * Z.abs xi0 + 12) * B) with (10 * w + 12 * B) by (unfold w; ring).
lia. }
  eapply h_bind; [apply (h_mapM lb L' Pre' Hon _ (fun _ c => islk c bo) (fun e i c => rab e (fun h B u v => frep h e c ((10 * Z.abs xi0 + 12) * B) (lov xi0 u v i))) ccells)|]; cbv beta.
  { intros i Hi. apply in_seq in Hi. destruct (Nat.ltb_spec i 5) as [Hi5|Hi5].
    - destruct (GET i ltac:(lia)) as (d & s & Ed & Es & Kd & Ks & Cd & Cs & R). destruct (GET (i + 6)%nat ltac:(lia)) as (d6 & s6 & Ed6 & Es6 & Kd6 & Ks6 & Cd6 & Cs6 & R6). rewrite Ed, Ed6, Es6.
      do 3 (eapply h_lift_bind; [eauto|intros ? EQ; injection EQ as <-]).
      nb (G_smul_add).
      eapply h_post; [apply (G_sub _ _ Hon c s6 (Nat.max (bd + log2_ceil (Z.abs xi0)) bd + 1) bd); try inc; eauto| | |]; cbv beta.
      + intros o Ko. eapply (islk_le lb m Hlb Hlb2); eauto. lia.
      + intros e o _ [HP R1] R2 h Ba Bb u v Hu Hv. destruct (R e HP h Ba Bb u v Hu Hv) as [D1 D2]. destruct (R6 e HP h Ba Bb u v Hu Hv) as [D3 D4].
        pose proof (R2 h _ _ _ _ (R1 h _ _ _ _ D3 D1) D4) as Q. unfold lov. rewrite (proj2 (Nat.ltb_lt _ _) Hi5). eapply (frep_le lb m Hlb Hlb2); [exact Q|]. apply HB6; eauto.
      + intros o _. apply incl_appl, incl_refl.
    - destruct (GET i ltac:(lia)) as (d & s & Ed & Es & Kd & Ks & Cd & Cs & R). rewrite Ed.
      eapply h_post; [apply h_lift; eauto| | |]; cbv beta.
      + intros o [= <-]. eapply (islk_le lb m Hlb Hlb2); eauto. lia.
      + intros e o [= <-] HP _ h Ba Bb u v Hu Hv. destruct (R e HP h Ba Bb u v Hu Hv) as [D1 D2]. unfold lov. destruct (Nat.ltb_spec i 5); [lia|]. eapply (frep_le lb m Hlb Hlb2); [exact D1|].
        pose proof (cnt_FL6 i ltac:(lia)). specialize (POS _ _ _ _ _ _ Hu Hv). set (B := Ba * Bb) in *. clearbody B. assert (Z.of_nat (cnt FL i) <= 6) by lia. assert (0 <= B * Z.abs xi0) by nia. nia.
      + intros o [= <-] x Hx. apply in_or_app. right. now apply Cd. }
  intros lo Hlo.
  eapply h_bind; [eapply h_sub; [apply (h_mapM lb L' Pre' Hon _ (fun _ c => islk c bo) (fun e i c => rab e (fun h B u v => frep h e c ((10 * Z.abs xi0 + 12) * B) (hiv xi0 u v i))) ccells)|apply incl_appr, incl_refl|tauto|tauto]|]; cbv beta.
  { intros i Hi. apply in_seq in Hi. destruct (Nat.ltb_spec i 5) as [Hi5|Hi5].
    - destruct (GET i ltac:(lia)) as (d & s & Ed & Es & Kd & Ks & Cd & Cs & R). destruct (GET (i + 6)%nat ltac:(lia)) as (d6 & s6 & Ed6 & Es6 & Kd6 & Ks6 & Cd6 & Cs6 & R6). rewrite Es, Ed6, Es6.
      do 3 (eapply h_lift_bind; [eauto|intros ? EQ; injection EQ as <-]).
      nb (G_add).
      eapply h_post; [apply (G_smul_add _ _ Hon s6 c bd (Nat.max bd bd + 1) xi0); try inc; eauto| | |]; cbv beta.
      + intros o Ko. eapply (islk_le lb m Hlb Hlb2); eauto. lia.
      + intros e o _ [HP R1] R2 h Ba Bb u v Hu Hv. destruct (R e HP h Ba Bb u v Hu Hv) as [D1 D2]. destruct (R6 e HP h Ba Bb u v Hu Hv) as [D3 D4].
        pose proof (R2 h _ _ _ _ D4 (R1 h _ _ _ _ D2 D3)) as Q. unfold hiv. rewrite (proj2 (Nat.ltb_lt _ _) Hi5). eapply (frep_le lb m Hlb Hlb2); [exact Q|]. specialize (HB6 i (Ba * Bb) Hi5 (POS _ _ _ _ _ _ Hu Hv)). lia.
      + intros o _. apply incl_appl, incl_refl.
    - destruct (GET i ltac:(lia)) as (d & s & Ed & Es & Kd & Ks & Cd & Cs & R). rewrite Es.
      eapply h_post; [apply h_lift; eauto| | |]; cbv beta.
      + intros o [= <-]. eapply (islk_le lb m Hlb Hlb2); eauto. lia.
      + intros e o [= <-] HP _ h Ba Bb u v Hu Hv. destruct (R e HP h Ba Bb u v Hu Hv) as [D1 D2]. unfold hiv. destruct (Nat.ltb_spec i 5); [lia|]. eapply (frep_le lb m Hlb Hlb2); [exact D2|].
        pose proof (cnt_FL6 i ltac:(lia)). specialize (POS _ _ _ _ _ _ Hu Hv). set (B := Ba * Bb) in *. clearbody B. assert (Z.of_nat (cnt FL i) <= 6) by lia. assert (0 <= B * Z.abs xi0) by nia. nia.
      + intros o [= <-] x Hx. apply in_or_app. right. now apply Cs. }
  intros hi Hhi. apply h_ret.
  - split. { rewrite app_length. apply Forall2_len in Hlo, Hhi. rewrite seq_length in *. lia. }
    apply Forall_app. split; [clear - Hlo|clear - Hhi].
    + induction Hlo; constructor; auto.
    + induction Hhi; constructor; auto.
  - unfold vcells. rewrite flat_map_app. intros x Hx. rewrite !in_app_iff in *. tauto.
  - intros e [[HP R1] R2] h Ba Bb u v Hu Hv.
    assert (Lu : length u = 12%nat) by (rewrite <- La; symmetry; eapply (vrep_len lb m Hlb Hlb2); eauto). assert (Lv : length v = 12%nat) by (rewrite <- Lb; symmetry; eapply (vrep_len lb m Hlb Hlb2); eauto).
    rewrite x12_formula by auto. apply Forall2_app; apply F2_map_r.
    + clear - R1 Hu Hv. induction R1; constructor; eauto.
    + clear - R2 Hu Hv. induction R2; constructor; eauto.
Qed.
End Mul12.

Lemma l12_mul_nc (L : list AV) (Pre : env -> Prop) (Hon : Prop) (a b : vec) ba bb xi0 : vpre L a -> vpre L b -> visk a ba -> visk b bb -> (Hon -> length a = 12%nat /\ length b = 12%nat) ->
  - 2 ^ 63 < xi0 < 2 ^ 63 ->
  hcalc L Pre Hon (fp12_mul_no_carry ch xi0 a b) (fun o => length a = 12%nat /\ length b = 12%nat /\ length o = 12%nat /\ visk o (lg + ba + bb + 9 + log2_ceil (Z.abs xi0)))
    (fun e o => forall h Ba Bb u v, vrep h e a Ba u -> vrep h e b Bb v -> vrep h e o ((10 * Z.abs xi0 + 12) * (Ba * Bb)) (x12_mul xi0 u v)) vcells.
Proof.
  intros Ca Cb Ka Kb HL Hxi. unfold fp12_mul_no_carry.
  eapply h_assert_bind. { intros Hh _. destruct (HL Hh) as [-> _]. reflexivity. } intros La. apply Nat.eqb_eq in La.
  eapply h_assert_bind. { intros Hh _. destruct (HL Hh) as [_ ->]. reflexivity. } intros Lb. apply Nat.eqb_eq in Lb. cbv beta.
  eapply h_bind; [apply (l12_loop L Pre Hon a b ba bb xi0); auto|]. cbv beta. intros [[[x00 x01] x10] x11] HI. cbv iota beta.
  eapply h_bind; [apply (l12_mid Hon a b ba bb xi0 La Lb Hxi x00 x01 x10 x11 _ _ (incl_appl _ (incl_refl _)) HI); tauto|]. cbv beta zeta. intros ms Hms.
  eapply h_post; [apply (l12_out Pre Hon a b ba bb xi0 La Lb Hxi ms _ _ (incl_appl _ (incl_refl _)) Hms); tauto| | |]; cbv beta.
  - intros o [H1 H2]. auto.
  - intros e o _ _ R. exact R.
  - intros o _. apply incl_appl, incl_refl.
Qed.
End ExtProofs.
