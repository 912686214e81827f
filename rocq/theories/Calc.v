(** A joint proof rule for circuits whose outputs are a function of their inputs: [calc] packages soundness (every
    satisfying assignment computes the function) and completeness (the honest run succeeds, computes the function and
    satisfies the constraints) so that both are proved at once. *)
From Coq Require Import ZArith Lia List Bool Znumtheory.
From Verif Require Import Field Context ContextProofs Spec Logic Utils Gate GateProofs ChainProofs IPProofs BitProofs PowProofs IPComp Derived.
Import ListNotations.
Local Open Scope Z_scope.

Section Calc.
Context {p : positive}.
Notation Fp := (F p).
Notation AV := (AV p).
Variable lb : nat.
Notation sound := (sound lb).
Notation comp := (comp lb).

(** the honest value carried by an assigned value *)
Definition hval (a : AV) : Fp := aeval (av_val a).
Definition good (a : AV) : Prop := hv a (hval a).
Definition env := AV -> Fp.

Definition calc {B} (L : list AV) (Pre : env -> Prop) (m : M p B) (P : B -> Prop) (R : env -> B -> Prop)
    (cs : B -> list AV) : Prop :=
  sound m P (fun sg o => Pre (avs sg) -> R (avs sg) o) /\
  (Forall good L -> Pre hval ->
   comp (fun rho => Forall (av_ok rho) L) m
        (fun o => P o /\ Forall good (cs o) /\ R hval o) (fun rho o => Forall (av_ok rho) (cs o))).

Lemma hv_hval (a : AV) v : hv a v -> hval a = v.
Proof. intros [H _]. unfold hval. now rewrite H. Qed.
Lemma hv_good (a : AV) v : hv a v -> good a.
Proof. intros H. unfold good. now rewrite (hv_hval a v). Qed.
Lemma hv_good_l (l : list AV) vs : Forall2 hv l vs -> Forall good l.
Proof. induction 1; constructor; eauto using hv_good. Qed.
Lemma hv_hval_l (l : list AV) vs : Forall2 hv l vs -> map hval l = vs.
Proof. induction 1; cbn; f_equal; auto using hv_hval. Qed.
Lemma good_hv_l (l : list AV) : Forall good l -> Forall2 hv l (map hval l).
Proof. induction 1; cbn; constructor; auto. Qed.

Lemma calc_ret {B} L (Pre : env -> Prop) (b : B) (P : B -> Prop) (R : env -> B -> Prop) cs :
  P b -> incl (cs b) L -> (forall e, Pre e -> R e b) -> calc L Pre (ret b) P R cs.
Proof.
  intros HP HI HR. split.
  - apply sound_ret; auto.
  - intros HG Hpre. apply comp_ret.
    + split; auto. split; auto. rewrite Forall_forall in *. auto.
    + intros rho HF. rewrite Forall_forall in *. auto.
Qed.

Lemma calc_bind {A B} L (Pre : env -> Prop) (m : M p A) (f : A -> M p B) P1 R1 c1 P2 R2 c2 :
  calc L Pre m P1 R1 c1 ->
  (forall a, P1 a -> calc (c1 a ++ L) (fun e => Pre e /\ R1 e a) (f a) P2 R2 c2) ->
  calc L Pre (bind m f) P2 R2 c2.
Proof.
  intros [S1 C1] H2. split.
  - eapply sound_bind; [exact S1|]. cbv beta. intros a Ha.
    eapply sound_weaken; [apply (proj1 (H2 a Ha))|auto|]. cbv beta. intros sg b Pb Hb HR Hpre. auto.
  - intros HG Hpre. eapply comp_bind; [apply C1; auto|auto|]. cbv beta. intros a (Pa & Ga & Ra).
    eapply comp_weaken; [apply (proj2 (H2 a Pa))| | |]; cbv beta; auto.
    + apply Forall_app; auto.
    + intros rho [? ?]. apply Forall_app; auto.
Qed.

Lemma calc_weaken {B} L L' (Pre Pre' : env -> Prop) (m : M p B) (P P' : B -> Prop) (R R' : env -> B -> Prop) cs cs' :
  calc L Pre m P R cs -> incl L L' -> (forall e, Pre' e -> Pre e) -> (forall b, P b -> P' b) ->
  (forall e b, P b -> Pre' e -> R e b -> R' e b) -> (forall b, P b -> incl (cs' b) (cs b ++ L')) ->
  calc L' Pre' m P' R' cs'.
Proof.
  intros [S C] HL HPre HP HR HC. split.
  - eapply sound_weaken; [exact S|auto|]. cbv beta. auto.
  - intros HG Hpre.
    assert (HG' : Forall good L) by (rewrite Forall_forall in *; auto).
    intros s W. destruct (C HG' (HPre _ Hpre) s W) as (b & s' & E & W' & X & (Pb & Gb & Rb) & K).
    exists b, s'. do 3 (split; auto). split.
    + split; auto. split; auto. specialize (HC b Pb). rewrite Forall_forall in *. intros a Ha.
      apply HC, in_app_or in Ha as [Ha|Ha]; auto.
    + intros rho HA HS HF.
      assert (HF' : Forall (av_ok rho) L) by (rewrite Forall_forall in *; auto).
      destruct (K rho HA HS HF') as [K1 K2]. split; auto.
      specialize (HC b Pb). rewrite Forall_forall in *. intros a Ha. apply HC, in_app_or in Ha as [Ha|Ha]; auto.
Qed.

Lemma calc_lift {A} L (Pre : env -> Prop) (o : option A) a (P : A -> Prop) (R : env -> A -> Prop) cs :
  o = Some a -> P a -> incl (cs a) L -> (forall e, Pre e -> R e a) -> calc L Pre (lift o) P R cs.
Proof. intros -> HP HI HR. change (lift (Some a)) with (ret (p:=p) a). now apply calc_ret. Qed.
Lemma calc_lift_bind {A B} L (Pre : env -> Prop) (o : option A) a (f : A -> M p B) P R cs :
  o = Some a -> calc L Pre (f a) P R cs -> calc L Pre (bind (lift o) f) P R cs.
Proof.
  intros -> H. eapply calc_bind; [apply (calc_lift L Pre (Some a) a (fun x => x = a) (fun _ _ => True) (fun _ => [])); auto; intros x []|].
  cbv beta. intros x ->. eapply calc_weaken; [exact H|apply incl_refl|tauto|auto|auto|]. intros b _ x Hx. apply in_or_app; auto.
Qed.
Lemma calc_assert_bind {B} L (Pre : env -> Prop) b (f : unit -> M p B) P R cs :
  b = true -> calc L Pre (f tt) P R cs -> calc L Pre (bind (assert_ b) f) P R cs.
Proof.
  intros -> H. change (assert_ true) with (lift (p:=p) (Some tt)). eapply calc_lift_bind; eauto.
Qed.

Lemma calc_mapM {A B} L (Pre : env -> Prop) (f : A -> M p B) P R cs l :
  (forall x, In x l -> calc L Pre (f x) (P x) (fun e y => R e x y) cs) ->
  calc L Pre (mapM f l) (fun ys => Forall2 P l ys) (fun e ys => Forall2 (R e) l ys) (fun ys => flat_map cs ys).
Proof.
  induction l as [|x l IH]; intros HF; cbn [mapM].
  - apply calc_ret; auto. intros a [].
  - eapply calc_bind; [apply HF; now left|]. cbv beta. intros y Py.
    eapply calc_bind. { eapply calc_weaken; [apply IH; intros; apply HF; now right| | | | |]; cbv beta.
      - intros a Ha. apply in_or_app; auto.
      - intros e [? _]; auto.
      - intros b Hb; exact Hb.
      - intros e b _ _ Hb; exact Hb.
      - intros b _ a Ha. apply in_or_app; left; exact Ha. }
    cbv beta. intros ys Pys. apply calc_ret; auto.
    + intros a Ha. cbn in Ha. apply in_app_or in Ha as [Ha|Ha]; apply in_or_app; [right; apply in_or_app|]; auto.
    + intros e [[? ?] ?]. auto.
Qed.

Lemma calc_foldM {A B} L (Pre : env -> Prop) (f : B -> A -> M p B) (I : list A -> B -> Prop) (J : env -> list A -> B -> Prop) cs l b0 :
  (forall done x rest b, l = done ++ x :: rest -> I done b ->
     calc (cs b ++ L) (fun e => Pre e /\ J e done b) (f b x) (I (done ++ [x])) (fun e => J e (done ++ [x])) cs) ->
  I [] b0 -> (forall e, Pre e -> J e [] b0) -> incl (cs b0) L ->
  calc L Pre (foldM f l b0) (I l) (fun e => J e l) cs.
Proof.
  intros HF HI HJ HC.
  enough (G : forall rest done b, l = done ++ rest -> I done b ->
     calc (cs b ++ L) (fun e => Pre e /\ J e done b) (foldM f rest b) (I l) (fun e => J e l) cs).
  { eapply calc_weaken; [apply (G l [] b0); auto| | | | |]; cbv beta.
    - intros a Ha. apply in_app_or in Ha as [Ha|Ha]; auto.
    - auto.
    - auto.
    - auto.
    - intros b _ a Ha. apply in_or_app; auto. }
  induction rest as [|x rest IH]; intros done b E Ib; cbn [foldM].
  - rewrite app_nil_r in E. subst. apply calc_ret; auto.
    + intros a Ha. apply in_or_app; auto.
    + tauto.
  - eapply calc_bind; [apply (HF done x rest b E Ib)|]. cbv beta. intros b' Ib'.
    eapply calc_weaken; [apply (IH (done ++ [x]) b'); [now rewrite <- app_assoc|auto]| | | | |]; cbv beta.
    + intros a Ha. apply in_app_or in Ha as [Ha|Ha]; apply in_or_app; [left|right; apply in_or_app; right]; auto.
    + tauto.
    + auto.
    + auto.
    + intros b'' _ a Ha. apply in_or_app; auto.
Qed.

(** ** primitives *)
Definition qe (e : env) (q : qcell p) : Fp := match q with Existing a => e a | Constant c => c | _ => F0 end.
Definition qin (L : list AV) (q : qcell p) : Prop := match q with Existing a => In a L | Constant _ => True | _ => False end.
Lemma qin_pin L q : qin L q -> pin q.
Proof. destruct q; cbn; auto. Qed.
Lemma qin_qh L q : Forall good L -> qin L q -> qh q (qe hval q).
Proof. rewrite Forall_forall. intros HG H. destruct q; cbn in *; try contradiction; auto using qh_const. apply qh_existing. now apply HG. Qed.
Lemma qin_ok L q rho : Forall (av_ok rho) L -> qin L q -> q_ok rho q.
Proof. rewrite Forall_forall. intros HG H. destruct q; cbn in *; try contradiction; auto. Qed.
Lemma qval_qe sg q : qval sg q = qe (avs sg) q.
Proof. destruct q; reflexivity. Qed.

Definition one (a : AV) : list AV := [a].
(** a primitive returning a cell whose value is [v e] *)
Lemma calc_prim L (Pre : env -> Prop) (m : M p AV) (v : env -> Fp) H :
  sound m (fun _ => True) (fun sg o => avs sg o = v (avs sg)) ->
  (Forall good L -> comp H m (fun o => hv o (v hval)) (fun rho o => av_ok rho o)) ->
  (forall rho, Forall (av_ok rho) L -> H rho) ->
  calc L Pre m (fun _ => True) (fun e o => e o = v e) one.
Proof.
  intros S C HH. split.
  - eapply sound_weaken; [exact S|auto|]. cbv beta. auto.
  - intros HG _. eapply comp_weaken; [apply C; auto|auto| |]; cbv beta.
    + intros o Ho. split; auto. split; [constructor; eauto using hv_good|eauto using hv_hval].
    + intros rho o _ _ Ho. constructor; auto.
Qed.
Ltac prim S C :=
  eapply calc_prim;
  [ eapply sound_weaken; [apply S; eauto using qin_pin|auto|]; cbv beta; intros; rewrite <- ?qval_qe; eauto
  | intros HG; apply C; eauto using qin_qh
  | intros rho HF; unfold qok2, qok3; repeat split; eauto using qin_ok ].
Lemma calc_add L (Pre : env -> Prop) a b : qin L a -> qin L b -> calc L Pre (add a b) (fun _ => True) (fun e o => e o = (qe e a + qe e b)%F) one.
Proof. intros. prim (@add_pin p lb) (@add_comp p lb). Qed.
Lemma calc_sub L (Pre : env -> Prop) a b : qin L a -> qin L b -> calc L Pre (sub a b) (fun _ => True) (fun e o => e o = (qe e a - qe e b)%F) one.
Proof. intros. prim (@sub_pin p lb) (@sub_comp p lb). Qed.
Lemma calc_mul L (Pre : env -> Prop) a b : qin L a -> qin L b -> calc L Pre (mul a b) (fun _ => True) (fun e o => e o = (qe e a * qe e b)%F) one.
Proof. intros. prim (@mul_pin p lb) (@mul_comp p lb). Qed.
Lemma calc_mul_add L (Pre : env -> Prop) a b c : qin L a -> qin L b -> qin L c ->
  calc L Pre (mul_add a b c) (fun _ => True) (fun e o => e o = (qe e a * qe e b + qe e c)%F) one.
Proof. intros. prim (@mul_add_pin p lb) (@mul_add_comp p lb). Qed.
Lemma calc_or L (Pre : env -> Prop) a b : qin L a -> qin L b ->
  calc L Pre (or a b) (fun _ => True) (fun e o => e o = (qe e a + qe e b - qe e a * qe e b)%F) one.
Proof. intros. prim (@or_pin p lb) (@or_comp p lb). Qed.
Lemma calc_not L (Pre : env -> Prop) a : qin L a -> calc L Pre (not a) (fun _ => True) (fun e o => e o = (1 - qe e a)%F) one.
Proof. intros. prim (@not_pin p lb) (@not_comp p lb). Qed.
Lemma calc_select L (Pre : env -> Prop) a b c : qin L a -> qin L b -> qin L c ->
  calc L Pre (select a b c) (fun _ => True) (fun e o => e o = ((qe e a - qe e b) * qe e c + qe e b)%F) one.
Proof. intros. prim (@select_pin p lb) (@select_comp p lb). Qed.
Lemma calc_is_equal (Hp : prime (Z.pos p)) L (Pre : env -> Prop) a b : qin L a -> qin L b ->
  calc L Pre (is_equal a b) (fun _ => True) (fun e o => e o = fbool (Feqb (qe e a) (qe e b))) one.
Proof. intros. prim (@is_equal_pin p lb Hp) (@is_equal_comp p lb Hp). Qed.
Lemma calc_load_constant L (Pre : env -> Prop) c : calc L Pre (load_constant c) (fun _ => True) (fun e o => e o = c) one.
Proof.
  apply (calc_prim L Pre (load_constant c) (fun _ => c) (fun _ => True)); [apply sound_load_constant|intros; apply comp_load_constant|auto].
Qed.
Lemma calc_load_zero L (Pre : env -> Prop) : calc L Pre load_zero (fun _ => True) (fun e o => e o = F0) one.
Proof.
  apply (calc_prim L Pre load_zero (fun _ => F0) (fun _ => True)); [apply sound_load_zero|intros; apply comp_load_zero|auto].
Qed.

Lemma qin_pin_l L l : Forall (qin L) l -> Forall pin l.
Proof. induction 1; constructor; eauto using qin_pin. Qed.
Lemma qin_qh_l L l : Forall good L -> Forall (qin L) l -> Forall2 qh l (map (qe hval) l).
Proof. induction 2; cbn; constructor; eauto using qin_qh. Qed.
Lemma qin_ok_l L l rho : Forall (av_ok rho) L -> Forall (qin L) l -> Forall (q_ok rho) l.
Proof. induction 2; constructor; eauto using qin_ok. Qed.
Lemma qval_qe_l sg l : map (qval sg) l = map (qe (avs sg)) l.
Proof. apply map_ext. apply qval_qe. Qed.
Lemma qin_existing L (l : list AV) : incl l L -> Forall (qin L) (map Existing l).
Proof. intros H. apply Forall_forall. intros q Hq. apply in_map_iff in Hq as (a & <- & Ha). cbn. auto. Qed.
Lemma qin_constant L (l : list Fp) : Forall (qin L) (map Constant l).
Proof. apply Forall_forall. intros q Hq. apply in_map_iff in Hq as (a & <- & Ha). cbn. auto. Qed.
Lemma qe_existing e (l : list AV) : map (qe e) (map Existing l) = map e l.
Proof. now rewrite map_map. Qed.
Lemma qe_constant e (l : list Fp) : map (qe e) (map Constant l) = l.
Proof. rewrite map_map. apply map_id. Qed.

Lemma calc_sum L (Pre : env -> Prop) l : Forall (qin L) l ->
  calc L Pre (sum l) (fun _ => True) (fun e o => e o = fsum (map (qe e) l)) one.
Proof.
  intros HL. eapply calc_prim.
  - eapply sound_weaken; [apply (sum_pin lb); eauto using qin_pin_l|auto|]. cbv beta. intros sg o _ E. rewrite E, qval_qe_l. reflexivity.
  - intros HG. apply (sum_comp lb); eauto using qin_qh_l.
  - cbv beta. eauto using qin_ok_l.
Qed.
Lemma calc_inner_product L (Pre : env -> Prop) a b : length a = length b -> Forall (qin L) a -> Forall (qin L) b ->
  calc L Pre (inner_product a b) (fun _ => True) (fun e o => e o = dot (map (qe e) a) (map (qe e) b)) one.
Proof.
  intros HL HA HB. eapply calc_prim.
  - eapply sound_weaken; [apply (inner_product_pin lb); eauto using qin_pin_l|auto|]. cbv beta. intros sg o _ E. rewrite E, !qval_qe_l. reflexivity.
  - intros HG. apply (inner_product_comp lb); eauto using qin_qh_l.
  - intros rho HF. split; eauto using qin_ok_l.
Qed.
(** a primitive returning a list of cells *)
Lemma calc_prim_l L (Pre : env -> Prop) (m : M p (list AV)) (P : list AV -> Prop) (v : env -> list Fp) H :
  sound m P (fun sg o => map (avs sg) o = v (avs sg)) ->
  (Forall good L -> comp H m (fun o => Forall2 hv o (v hval)) (fun rho o => Forall (av_ok rho) o)) ->
  (forall rho, Forall (av_ok rho) L -> H rho) ->
  (forall o, Forall2 hv o (v hval) -> P o) ->
  calc L Pre m P (fun e o => map e o = v e) (fun o => o).
Proof.
  intros S C HH HP. split.
  - eapply sound_weaken; [exact S|auto|]. cbv beta. auto.
  - intros HG _. eapply comp_weaken; [apply C; auto|auto| |]; cbv beta; auto.
    intros o Ho. split; auto. split; eauto using hv_good_l, hv_hval_l.
Qed.
End Calc.
Arguments one {p} a /.
