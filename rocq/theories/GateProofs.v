(** Soundness and completeness of the gate instructions. *)
From Coq Require Import ZArith Lia List Bool Znumtheory Ring.
From Verif Require Import Field Context ContextProofs Spec Logic Utils Gate.
Import ListNotations.
Local Open Scope Z_scope.

(** recognise ring constants *)
Ltac Fcst t :=
  match t with
  | @F0 _ => constr:(0%Z) | @F1 _ => constr:(1%Z)
  | of_Z _ ?z => match isZcst z with true => z | _ => constr:(InitialRing.NotConstant) end
  | _ => constr:(InitialRing.NotConstant)
  end.

Ltac in_offs Hk :=
  cbn [In] in Hk; repeat destruct Hk as [Hk|Hk]; try contradiction;
  match type of Hk with ?z = Z.of_nat ?k =>
    let n := eval vm_compute in (Z.to_nat z) in assert (k = n) by lia; subst k; clear Hk end.
Ltac in_eqs Hk :=
  cbn [In] in Hk; repeat destruct Hk as [Hk|Hk]; try contradiction;
  match type of Hk with (?z, ?z') = (Z.of_nat ?i, Z.of_nat ?j) =>
    let n := eval vm_compute in (Z.to_nat z) in let n' := eval vm_compute in (Z.to_nat z') in
    assert (i = n) by (injection Hk; lia); assert (j = n') by (injection Hk; lia); subst i j; clear Hk end.
Ltac nonneg_offs := repeat constructor; cbn; lia.
Ltac cell_oks := repeat (apply Forall_cons || apply Forall_nil); cbn; eauto using qh_cell.
Ltac offs_in := let H := fresh "HI" in intros ? H; cbn [In] in H; repeat destruct H as [<-|H]; try contradiction; cbn [length]; lia.

Ltac cellv Hq i := let H := fresh "C" in pose proof (Hq i _ eq_refl) as H; cbn [qsem] in H.
Ltac gatev Hg i := let H := fresh "G" in
  pose proof (Hg i ltac:(cbn [In]; repeat ((left; reflexivity) || right))) as H; cbn [Nat.add] in H.
Ltac slift := repeat (apply sound_lift_bind; intros ? ?).
Ltac sregion L :=
  slift; eapply sound_weaken;
  [ eapply L; first [nonneg_offs | cbn; lia] | exact (fun _ H => H) | ];
  let v := fresh "v" in let Hq := fresh "Hq" in let Hg := fresh "Hg" in let Ho := fresh "Ho" in
  intros sg o _ (v & [Hq Hg] & Ho); cbn [length Nat.sub] in Ho.
Ltac sregion2 L :=
  slift; eapply sound_weaken;
  [ eapply L; first [nonneg_offs | cbn; lia] | exact (fun _ H => H) | ];
  let v := fresh "v" in let Hq := fresh "Hq" in let Hg := fresh "Hg" in let Ho := fresh "Ho" in let He := fresh "He" in
  intros sg o _ (v & [Hq Hg] & He & Ho); cbn [length Nat.sub] in Ho.
Ltac eqv He i j := let H := fresh "E" in
  pose proof (He i j ltac:(cbn [In]; repeat ((left; reflexivity) || right))) as H.
Ltac clift := repeat (eapply comp_lift_bind; [solve [eauto using qh_val, hv_val]|]).
Ltac qoks := let rho := fresh "rho" in let H := fresh "H" in
  intros rho H; cbv beta in *; repeat match goal with X : _ /\ _ |- _ => destruct X end;
  repeat (apply Forall_cons || apply Forall_nil); cbn [q_ok]; auto.
Ltac advs := repeat match goal with
   | H : qh ?q ?x |- context [qadv ?q] => rewrite (qh_adv _ _ H)
   | H : hv ?q ?x |- context [av_val ?q] => rewrite (proj1 H)
   end.
Ltac gates := let Hk := fresh "Hk" in intros ? Hk; in_offs Hk;
  unfold qvals; cbn [map nth qadv aeval Nat.add]; advs; cbn [aeval]; try ring.
Ltac eqs := let Hk := fresh "Hk" in intros ? ? Hk; in_eqs Hk;
  unfold qvals; cbn [map nth qadv aeval Nat.add length]; advs; cbn [aeval]; repeat split; try lia; try ring.
Ltac hvout := let H1 := fresh in let H2 := fresh in
  intros ? [H1 H2]; split; [|exact H2]; rewrite H1; cbn [qadv]; advs; f_equal; try ring.
Ltac cregion L := clift; eapply comp_weaken;
  [ eapply L; [cell_oks | offs_in | cbn; lia | reflexivity | gates] | qoks | hvout | auto ].
Ltac csmart L := clift; eapply comp_weaken;
  [ eapply L; [cell_oks | offs_in | nonneg_offs | eqs | cbn; lia | reflexivity | gates] | qoks | hvout | auto ].
Ltac okd := try exact (fun _ H => H).

Section GateProofs.
Context {p : positive}.
Notation Fp := (F p).
Variable lb : nat.
Notation sound := (sound lb).
Notation comp := (comp lb).
Implicit Types (a b c q : qcell p).

Add Ring Fring : (F_ring p) (morphism (F_morph p), constants [Fcst]).

(** value of the i-th cell, all gate equations, in the context of [region_sem] *)


Lemma add_sound a b : sound (add a b) (fun _ => True)
  (fun sg o => exists x y, qsem sg a x /\ qsem sg b y /\ avs sg o = (x + y)%F).
Proof.
  unfold add. sregion (@sound_region_last p lb).
  cellv Hq 0%nat. cellv Hq 1%nat. cellv Hq 2%nat. gatev Hg 0%nat.
  exists (v 0%nat), (v 1%nat). repeat split; auto. rewrite Ho, <- G, C1. ring.
Qed.


Definition qok2 a b := fun rho => q_ok rho a /\ q_ok rho b.
Definition qok3 a b c := fun rho => q_ok rho a /\ q_ok rho b /\ q_ok rho c.

Lemma add_comp a b x y : qh a x -> qh b y ->
  comp (qok2 a b) (add a b) (fun o => hv o (x + y)%F) (fun rho o => av_ok rho o).
Proof. intros Ha Hb. unfold add, qok2. cregion (@comp_region_last p lb). Qed.

Lemma sub_sound a b : sound (sub a b) (fun _ => True)
  (fun sg o => exists x y, qsem sg a x /\ qsem sg b y /\ avs sg o = (x - y)%F).
Proof.
  unfold sub. sregion (fun l o => @sound_region_get p lb l o 4).
  cellv Hq 1%nat. cellv Hq 2%nat. cellv Hq 3%nat. gatev Hg 0%nat.
  exists (v 3%nat), (v 1%nat). repeat split; auto. rewrite Ho, <- G, C0. ring.
Qed.
Lemma sub_comp a b x y : qh a x -> qh b y ->
  comp (qok2 a b) (sub a b) (fun o => hv o (x - y)%F) (fun rho o => av_ok rho o).
Proof. intros Ha Hb. unfold sub, qok2. cregion (fun l o => @comp_region_get p lb l o 4). Qed.

Lemma inc_sound a : sound (inc a) (fun _ => True)
  (fun sg o => exists x, qsem sg a x /\ avs sg o = (x + 1)%F).
Proof.
  unfold inc. eapply sound_weaken; [apply add_sound|auto|]. cbn. intros sg o _ (x & y & H1 & -> & H2). eauto.
Qed.
Lemma inc_comp a x : qh a x ->
  comp (fun rho => q_ok rho a) (inc a) (fun o => hv o (x + 1)%F) (fun rho o => av_ok rho o).
Proof. intros. unfold inc. eapply comp_weaken; [apply add_comp; eauto using qh_const| |auto|auto]. intros; split; simpl; auto. Qed.
Lemma dec_sound a : sound (dec a) (fun _ => True)
  (fun sg o => exists x, qsem sg a x /\ avs sg o = (x - 1)%F).
Proof.
  unfold dec. eapply sound_weaken; [apply sub_sound|auto|]. cbn. intros sg o _ (x & y & H1 & -> & H2). eauto.
Qed.
Lemma dec_comp a x : qh a x ->
  comp (fun rho => q_ok rho a) (dec a) (fun o => hv o (x - 1)%F) (fun rho o => av_ok rho o).
Proof. intros. unfold dec. eapply comp_weaken; [apply sub_comp; eauto using qh_const| |auto|auto]. intros; split; simpl; auto. Qed.

Lemma region_last_get l offs k s :
  bind (assign_region_last (p:=p) l offs) (fun _ => ctx_get k) s = None \/
  bind (assign_region_last l offs) (fun _ => ctx_get k) s = bind (assign_region l offs) (fun _ => ctx_get k) s.
Proof.
  unfold assign_region_last, bind. destruct (assign_region l offs s) as [[u s1]|]; auto.
  unfold ctx_last. destruct (nth_error _ _); auto.
Qed.

Lemma sub_mul_sound a b c : sound (sub_mul a b c) (fun _ => True)
  (fun sg o => exists x y z, qsem sg a x /\ qsem sg b y /\ qsem sg c z /\ avs sg o = (x - y * z)%F).
Proof.
  unfold sub_mul. slift.
  assert (HS : sound (bind (assign_region [Witness (a0 - a1 * a2)%F; b; c; a] [0]) (fun _ => ctx_get (-4))) (fun _ => True)
    (fun sg o => exists x y z, qsem sg a x /\ qsem sg b y /\ qsem sg c z /\ avs sg o = (x - y * z)%F)).
  { sregion (fun l o => @sound_region_get p lb l o 4).
    cellv Hq 1%nat. cellv Hq 2%nat. cellv Hq 3%nat. gatev Hg 0%nat.
    exists (v 3%nat), (v 1%nat), (v 2%nat). repeat split; auto. rewrite Ho, <- G. ring. }
  intros s o s' W E. destruct (region_last_get [Witness (a0 - a1 * a2)%F; b; c; a] [0] (-4) s) as [R|R];
    rewrite R in E; [discriminate|]. eapply HS; eauto.
Qed.
Lemma sub_mul_comp a b c x y z : qh a x -> qh b y -> qh c z ->
  comp (qok3 a b c) (sub_mul a b c) (fun o => hv o (x - y * z)%F) (fun rho o => av_ok rho o).
Proof.
  intros Ha Hb Hc. unfold sub_mul, qok3. clift.
  assert (HC : comp (qok3 a b c) (bind (assign_region [Witness (x - y * z)%F; b; c; a] [0]) (fun _ => ctx_get (-4)))
     (fun o => hv o (x - y * z)%F) (fun rho o => av_ok rho o)).
  { unfold qok3. cregion (fun l o => @comp_region_get p lb l o 4). }
  intros s W. destruct (HC s W) as (o & s' & E & R). exists o, s'. split; auto.
  unfold assign_region_last, bind in *.
  destruct (assign_region [Witness (x - y * z)%F; b; c; a] [0] s) as [[u s1]|]; [|discriminate].
  rewrite ctx_last_get. unfold ctx_get in E |- *.
  destruct (Z.ltb_spec (-4) 0); [|lia]. destruct (Z.ltb_spec (-1) 0); [|lia].
  destruct (Z.ltb_spec (Z.of_nat (alen s1) + -4) 0); [discriminate|].
  destruct (Z.ltb_spec (Z.of_nat (alen s1) + -1) 0); [lia|].
  destruct (nth_error (advice s1) (Z.to_nat (Z.of_nat (alen s1) + -1))) eqn:En.
  - destruct (Z.ltb_spec (Z.of_nat (alen s1) + -4) 0); [lia|exact E].
  - exfalso. apply nth_error_None in En. unfold alen in *. lia.
Qed.

Lemma neg_sound a : sound (neg a) (fun _ => True)
  (fun sg o => exists x, qsem sg a x /\ avs sg o = (- x)%F).
Proof.
  unfold neg. sregion (fun l o => @sound_region_get p lb l o 3).
  cellv Hq 0%nat. cellv Hq 2%nat. cellv Hq 3%nat. gatev Hg 0%nat.
  exists (v 0%nat). repeat split; auto. rewrite Ho. rewrite C0, C1 in G.
  transitivity (v 0%nat + v 1%nat * 1 - v 0%nat)%F; [ring|]. rewrite G. ring.
Qed.
Lemma neg_comp a x : qh a x ->
  comp (fun rho => q_ok rho a) (neg a) (fun o => hv o (- x)%F) (fun rho o => av_ok rho o).
Proof. intros Ha. unfold neg. cregion (fun l o => @comp_region_get p lb l o 3). Qed.

Lemma mul_sound a b : sound (mul a b) (fun _ => True)
  (fun sg o => exists x y, qsem sg a x /\ qsem sg b y /\ avs sg o = (x * y)%F).
Proof.
  unfold mul. sregion (@sound_region_last p lb).
  cellv Hq 0%nat. cellv Hq 1%nat. cellv Hq 2%nat. gatev Hg 0%nat.
  exists (v 1%nat), (v 2%nat). repeat split; auto. rewrite Ho, <- G, C. ring.
Qed.
Lemma mul_comp a b x y : qh a x -> qh b y ->
  comp (qok2 a b) (mul a b) (fun o => hv o (x * y)%F) (fun rho o => av_ok rho o).
Proof. intros Ha Hb. unfold mul, qok2. cregion (@comp_region_last p lb). Qed.

Lemma mul_add_sound a b c : sound (mul_add a b c) (fun _ => True)
  (fun sg o => exists x y z, qsem sg a x /\ qsem sg b y /\ qsem sg c z /\ avs sg o = (x * y + z)%F).
Proof.
  unfold mul_add. sregion (@sound_region_last p lb).
  cellv Hq 0%nat. cellv Hq 1%nat. cellv Hq 2%nat. gatev Hg 0%nat.
  exists (v 1%nat), (v 2%nat), (v 0%nat). repeat split; auto. rewrite Ho, <- G. ring.
Qed.
Lemma mul_add_comp a b c x y z : qh a x -> qh b y -> qh c z ->
  comp (qok3 a b c) (mul_add a b c) (fun o => hv o (x * y + z)%F) (fun rho o => av_ok rho o).
Proof. intros Ha Hb Hc. unfold mul_add, qok3. cregion (@comp_region_last p lb). Qed.

Lemma mul_not_sound a b : sound (mul_not a b) (fun _ => True)
  (fun sg o => exists x y, qsem sg a x /\ qsem sg b y /\ avs sg o = ((1 - x) * y)%F).
Proof.
  unfold mul_not. sregion2 (fun l o e => @sound_smart_get p lb l o e 4).
  cellv Hq 1%nat. cellv Hq 2%nat. cellv Hq 3%nat. gatev Hg 0%nat. eqv He 2%nat 3%nat.
  exists (v 1%nat), (v 2%nat). repeat split; auto. rewrite Ho.
  rewrite <- E in G.
  transitivity (v 0%nat + v 1%nat * v 2%nat - v 1%nat * v 2%nat)%F; [ring|]. rewrite G. ring.
Qed.
Lemma mul_not_comp a b x y : qh a x -> qh b y ->
  comp (qok2 a b) (mul_not a b) (fun o => hv o ((1 - x) * y)%F) (fun rho o => av_ok rho o).
Proof. intros Ha Hb. unfold mul_not, qok2. csmart (fun l o e => @comp_smart_get p lb l o e 4). Qed.

Lemma or_sound a b : sound (or a b) (fun _ => True)
  (fun sg o => exists x y, qsem sg a x /\ qsem sg b y /\ avs sg o = (x + y - x * y)%F).
Proof.
  unfold or. sregion2 (@sound_smart_last p lb).
  cellv Hq 1%nat. cellv Hq 2%nat. cellv Hq 3%nat. cellv Hq 4%nat. cellv Hq 5%nat.
  gatev Hg 0%nat. gatev Hg 4%nat. eqv He 0%nat 6%nat. eqv He 2%nat 4%nat.
  exists (v 5%nat), (v 2%nat). repeat split; auto. rewrite Ho, <- G0, <- E, <- E0.
  assert (v 0%nat = 1 - v 2%nat)%F as ->; [|ring]. rewrite <- C1, <- G, C. ring.
Qed.
Lemma or_comp a b x y : qh a x -> qh b y ->
  comp (qok2 a b) (or a b) (fun o => hv o (x + y - x * y)%F) (fun rho o => av_ok rho o).
Proof. intros Ha Hb. unfold or, qok2. csmart (@comp_smart_last p lb). Qed.

Lemma xor_sound a b : sound (xor a b) (fun _ => True)
  (fun sg o => exists x y, qsem sg a x /\ qsem sg b y /\ avs sg o = (x + y - of_Z p 2 * x * y)%F).
Proof.
  unfold xor. sregion2 (@sound_smart_last p lb).
  cellv Hq 1%nat. cellv Hq 2%nat. cellv Hq 3%nat. cellv Hq 4%nat. cellv Hq 5%nat.
  gatev Hg 0%nat. gatev Hg 4%nat. eqv He 0%nat 6%nat. eqv He 2%nat 4%nat.
  exists (v 5%nat), (v 2%nat). repeat split; auto. rewrite Ho, <- G0, <- E, <- E0.
  assert (v 0%nat = 1 - of_Z p 2 * v 2%nat)%F as ->; [|ring]. rewrite <- C1, <- G, C. unfold two. ring.
Qed.
Lemma xor_comp a b x y : qh a x -> qh b y ->
  comp (qok2 a b) (xor a b) (fun o => hv o (x + y - of_Z p 2 * x * y)%F) (fun rho o => av_ok rho o).
Proof. intros Ha Hb. unfold xor, qok2, two. csmart (@comp_smart_last p lb). Qed.

Lemma not_sound a : sound (not a) (fun _ => True)
  (fun sg o => exists x, qsem sg a x /\ avs sg o = (1 - x)%F).
Proof.
  unfold not. eapply sound_weaken; [apply sub_sound|auto|]. cbn. intros sg o _ (x & y & -> & H1 & H2). eauto.
Qed.
Lemma not_comp a x : qh a x ->
  comp (fun rho => q_ok rho a) (not a) (fun o => hv o (1 - x)%F) (fun rho o => av_ok rho o).
Proof. intros. unfold not. eapply comp_weaken; [apply sub_comp; eauto using qh_const| |auto|auto]. intros; split; simpl; auto. Qed.

Lemma select_sound a b c : sound (select a b c) (fun _ => True)
  (fun sg o => exists x y z, qsem sg a x /\ qsem sg b y /\ qsem sg c z /\ avs sg o = ((x - y) * z + y)%F).
Proof.
  unfold select. sregion2 (@sound_smart_last p lb).
  cellv Hq 1%nat. cellv Hq 2%nat. cellv Hq 3%nat. cellv Hq 4%nat. cellv Hq 5%nat.
  gatev Hg 0%nat. gatev Hg 4%nat. eqv He 0%nat 6%nat. eqv He 2%nat 4%nat.
  exists (v 3%nat), (v 2%nat), (v 5%nat). repeat split; auto. rewrite Ho, <- G0, <- E, <- E0.
  assert (v 0%nat = v 3%nat - v 2%nat)%F as ->; [|ring]. rewrite <- G, C. ring.
Qed.
Lemma select_comp a b c x y z : qh a x -> qh b y -> qh c z ->
  comp (qok3 a b c) (select a b c) (fun o => hv o ((x - y) * z + y)%F) (fun rho o => av_ok rho o).
Proof. intros Ha Hb Hc. unfold select, qok3. csmart (@comp_smart_last p lb). Qed.

Lemma or_and_sound a b c : sound (or_and a b c) (fun _ => True)
  (fun sg o => exists x y z, qsem sg a x /\ qsem sg b y /\ qsem sg c z /\ avs sg o = (y * z + x - (y * z) * x)%F).
Proof.
  unfold or_and. sregion2 (fun l o e => @sound_smart_get p lb l o e 5).
  cellv Hq 1%nat. cellv Hq 2%nat. cellv Hq 3%nat. cellv Hq 8%nat. cellv Hq 9%nat. cellv Hq 10%nat.
  gatev Hg 0%nat. gatev Hg 3%nat. gatev Hg 7%nat. eqv He 4%nat 7%nat. eqv He 0%nat 5%nat.
  exists (v 10%nat), (v 1%nat), (v 2%nat). repeat split; auto. rewrite Ho, <- G0, E, <- E0.
  assert (v 0%nat = 1 - v 1%nat * v 2%nat)%F as ->. { rewrite <- C1, <- G. ring. }
  assert (v 7%nat = v 10%nat - 1)%F as ->. { rewrite <- G1, C2, C3. ring. }
  rewrite C1. ring.
Qed.
Lemma or_and_comp a b c x y z : qh a x -> qh b y -> qh c z ->
  comp (qok3 a b c) (or_and a b c) (fun o => hv o (y * z + x - (y * z) * x)%F) (fun rho o => av_ok rho o).
Proof. intros Ha Hb Hc. unfold or_and, qok3. csmart (fun l o e => @comp_smart_get p lb l o e 5). Qed.
End GateProofs.
