(** Derived rules for arguments whose value is pinned (existing cells and constants): used by every chip built on top of the gate chip. *)
From Coq Require Import ZArith Lia List Bool Znumtheory Ring.
From Verif Require Import Field Context ContextProofs Spec Logic Utils Gate GateProofs ChainProofs IPProofs BitProofs PowProofs.
Import ListNotations.
Local Open Scope Z_scope.

Section Derived.
Context {p : positive}.
Notation Fp := (F p).
Variable lb : nat.
Notation sound := (sound lb).
Notation comp := (comp lb).
Implicit Types (a b c q : qcell p).

(** existing cells and constants *)
Definition pin q : Prop := match q with Existing _ | Constant _ => True | _ => False end.
Definition qval (sg : cell -> Fp) q : Fp :=
  match q with Existing a => avs sg a | Constant c => c | _ => F0 end.
Lemma pin_sem sg q x : pin q -> qsem sg q x -> x = qval sg q.
Proof. destruct q; cbn; auto; contradiction. Qed.

Lemma add_pin a b : pin a -> pin b -> sound (add a b) (fun _ => True) (fun sg o => avs sg o = (qval sg a + qval sg b)%F).
Proof.
  intros A B. eapply sound_weaken; [apply add_sound|auto|]. intros sg o _ (x & y & Hx & Hy & ->).
  now rewrite (pin_sem _ _ _ A Hx), (pin_sem _ _ _ B Hy).
Qed.
Lemma sub_pin a b : pin a -> pin b -> sound (sub a b) (fun _ => True) (fun sg o => avs sg o = (qval sg a - qval sg b)%F).
Proof.
  intros A B. eapply sound_weaken; [apply sub_sound|auto|]. intros sg o _ (x & y & Hx & Hy & ->).
  now rewrite (pin_sem _ _ _ A Hx), (pin_sem _ _ _ B Hy).
Qed.
Lemma mul_pin a b : pin a -> pin b -> sound (mul a b) (fun _ => True) (fun sg o => avs sg o = (qval sg a * qval sg b)%F).
Proof.
  intros A B. eapply sound_weaken; [apply mul_sound|auto|]. intros sg o _ (x & y & Hx & Hy & ->).
  now rewrite (pin_sem _ _ _ A Hx), (pin_sem _ _ _ B Hy).
Qed.
Lemma mul_add_pin a b c : pin a -> pin b -> pin c ->
  sound (mul_add a b c) (fun _ => True) (fun sg o => avs sg o = (qval sg a * qval sg b + qval sg c)%F).
Proof.
  intros A B C. eapply sound_weaken; [apply mul_add_sound|auto|]. intros sg o _ (x & y & z & Hx & Hy & Hz & ->).
  now rewrite (pin_sem _ _ _ A Hx), (pin_sem _ _ _ B Hy), (pin_sem _ _ _ C Hz).
Qed.
Lemma sub_mul_pin a b c : pin a -> pin b -> pin c ->
  sound (sub_mul a b c) (fun _ => True) (fun sg o => avs sg o = (qval sg a - qval sg b * qval sg c)%F).
Proof.
  intros A B C. eapply sound_weaken; [apply sub_mul_sound|auto|]. intros sg o _ (x & y & z & Hx & Hy & Hz & ->).
  now rewrite (pin_sem _ _ _ A Hx), (pin_sem _ _ _ B Hy), (pin_sem _ _ _ C Hz).
Qed.
Lemma neg_pin a : pin a -> sound (neg a) (fun _ => True) (fun sg o => avs sg o = (- qval sg a)%F).
Proof.
  intros A. eapply sound_weaken; [apply neg_sound|auto|]. intros sg o _ (x & Hx & ->).
  now rewrite (pin_sem _ _ _ A Hx).
Qed.
Lemma not_pin a : pin a -> sound (not a) (fun _ => True) (fun sg o => avs sg o = (1 - qval sg a)%F).
Proof.
  intros A. eapply sound_weaken; [apply not_sound|auto|]. intros sg o _ (x & Hx & ->).
  now rewrite (pin_sem _ _ _ A Hx).
Qed.
Lemma mul_not_pin a b : pin a -> pin b -> sound (mul_not a b) (fun _ => True) (fun sg o => avs sg o = ((1 - qval sg a) * qval sg b)%F).
Proof.
  intros A B. eapply sound_weaken; [apply mul_not_sound|auto|]. intros sg o _ (x & y & Hx & Hy & ->).
  now rewrite (pin_sem _ _ _ A Hx), (pin_sem _ _ _ B Hy).
Qed.
Lemma or_pin a b : pin a -> pin b -> sound (or a b) (fun _ => True)
  (fun sg o => avs sg o = (qval sg a + qval sg b - qval sg a * qval sg b)%F).
Proof.
  intros A B. eapply sound_weaken; [apply or_sound|auto|]. intros sg o _ (x & y & Hx & Hy & ->).
  now rewrite (pin_sem _ _ _ A Hx), (pin_sem _ _ _ B Hy).
Qed.
Lemma select_pin a b c : pin a -> pin b -> pin c ->
  sound (select a b c) (fun _ => True) (fun sg o => avs sg o = ((qval sg a - qval sg b) * qval sg c + qval sg b)%F).
Proof.
  intros A B C. eapply sound_weaken; [apply select_sound|auto|]. intros sg o _ (x & y & z & Hx & Hy & Hz & ->).
  now rewrite (pin_sem _ _ _ A Hx), (pin_sem _ _ _ B Hy), (pin_sem _ _ _ C Hz).
Qed.
Lemma div_unsafe_pin a b : pin a -> pin b ->
  sound (div_unsafe a b) (fun _ => True) (fun sg o => (avs sg o * qval sg b)%F = qval sg a).
Proof.
  intros A B. eapply sound_weaken; [apply div_unsafe_sound|auto|]. intros sg o _ (x & y & Hx & Hy & E).
  now rewrite <- (pin_sem _ _ _ A Hx), <- (pin_sem _ _ _ B Hy).
Qed.
Lemma is_equal_pin (Hp : prime (Z.pos p)) a b : pin a -> pin b ->
  sound (is_equal a b) (fun _ => True) (fun sg o => avs sg o = fbool (Feqb (qval sg a) (qval sg b))).
Proof.
  intros A B. eapply sound_weaken; [now apply is_equal_sound|auto|]. intros sg o _ (x & y & Hx & Hy & E).
  now rewrite <- (pin_sem _ _ _ A Hx), <- (pin_sem _ _ _ B Hy).
Qed.
Lemma pin_sem_l sg l xs : Forall pin l -> Forall2 (qsem sg) l xs -> xs = map (qval sg) l.
Proof.
  intros F1 F2. induction F2 as [|q x l xs Hq _ IH]; cbn; auto. inversion F1; subst.
  rewrite IH by auto. f_equal. now apply pin_sem.
Qed.
Lemma pin_existing (l : list (AV p)) : Forall pin (map Existing l).
Proof. induction l; cbn; constructor; cbn; auto. Qed.
Lemma pin_constant (l : list Fp) : Forall pin (map Constant l).
Proof. induction l; cbn; constructor; cbn; auto. Qed.
Lemma qval_existing sg (l : list (AV p)) : map (qval sg) (map Existing l) = map (avs sg) l.
Proof. now rewrite map_map. Qed.
Lemma qval_constant sg (l : list Fp) : map (qval sg) (map Constant l) = l.
Proof. rewrite map_map. cbn. apply map_id. Qed.
Lemma inner_product_pin (l l' : list (qcell p)) : length l = length l' -> Forall pin l -> Forall pin l' ->
  sound (inner_product l l') (fun _ => True) (fun sg o => avs sg o = dot (map (qval sg) l) (map (qval sg) l')).
Proof.
  intros HL A B. eapply sound_weaken; [now apply inner_product_sound|auto|]. intros sg o _ (x & y & Hx & Hy & ->).
  now rewrite (pin_sem_l _ _ _ A Hx), (pin_sem_l _ _ _ B Hy).
Qed.
Lemma sum_pin (l : list (qcell p)) : Forall pin l ->
  sound (sum l) (fun _ => True) (fun sg o => avs sg o = fsum (map (qval sg) l)).
Proof.
  intros A. eapply sound_weaken; [now apply sum_sound|auto|]. intros sg o _ (x & Hx & ->).
  now rewrite (pin_sem_l _ _ _ A Hx).
Qed.
End Derived.

(** one step of a soundness proof: [sb L as x h] uses the specification [L] for the next operation *)
Tactic Notation "sb" constr(L) "as" simple_intropattern(x) simple_intropattern(h) :=
  eapply sound_bind; [eapply L; try exact I|]; cbv beta; intros x h; cbv beta in *; cbn [qval] in *.
Tactic Notation "sl" constr(L) "as" simple_intropattern(x) simple_intropattern(h) :=
  eapply sound_weaken; [eapply L; try exact I|auto|]; cbv beta; intros x h; cbv beta in *; cbn [qval] in *.
(** side condition [forall rho, H rho -> H1 rho] of [comp_bind] *)
Ltac ctau := intros; cbv beta in *; unfold qok2, qok3 in *; cbn [q_ok] in *; tauto.
Ltac cargs := first [apply qh_existing; eassumption | apply qh_const | eassumption | idtac].
Tactic Notation "cb" constr(L) "as" simple_intropattern(x) simple_intropattern(h) :=
  eapply comp_bind; [eapply L; cargs | try ctau |]; cbv beta; intros x h; cbv beta in *.
Tactic Notation "cl" constr(L) :=
  eapply comp_weaken; [eapply L; cargs | try ctau | cbv beta; try solve [auto] | cbv beta; try solve [auto]].
