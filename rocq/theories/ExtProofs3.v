(** Fp2Chip and Fp12Chip (FieldExt.v) in terms of ExtSpec.v. [h : Prop] as in FpField.v. *)
From Coq Require Import ZArith Znumtheory Lia List Bool Ring.
From Verif Require Import Field Spec Context ContextProofs Utils Logic Gate GateProofs ChainProofs IPProofs BitProofs PowProofs IPComp Derived
  Range RangeProofs RangeProofs2 RangeProofs3 RegionGets Calc CalcH RegionPrev RegionLast BigPrims BigNum BigInt BigSpec BigOps BigSel BigCmp BigSub BigCarry BigMod BigCrtNum BigCrt FpChip FpProofs FpProofs2 FpProofs3 FpField FpField2 FpField3 FieldExt ExtSpec ExtProofs ExtProofs2.
Import ListNotations.
Local Open Scope Z_scope.

Lemma len2 {A} (l : list A) : length l = 2%nat -> exists a b, l = [a; b].
Proof. intros H. do 2 (destruct l as [|? l]; [discriminate|]). destruct l; [|discriminate]. eauto. Qed.
(** ** the accumulation of fp12.rs:158-177 *)
Definition FL : list (nat * nat) := list_prod (seq 0 6) (seq 0 6).
Definition cnt (l : list (nat * nat)) (t : nat) : nat := length (filter (fun ij => Nat.eqb (fst ij + snd ij) t) l).
Definition plen (l : list (nat * nat)) : nat := fold_left (fun n ij => if Nat.ltb (fst ij + snd ij) n then n else S n) l 0%nat.
Definition FL_check : bool := forallb (fun q =>
  match skipn q FL with
  | (i, j) :: _ => Nat.ltb i 6 && Nat.ltb j 6 && (Nat.ltb (i + j) (plen (firstn q FL)) || (Nat.eqb (i + j) (plen (firstn q FL)) && Nat.eqb (cnt (firstn q FL) (i + j)) 0))
  | [] => false
  end) (seq 0 36).
Lemma FL_check_ok : FL_check = true. Proof. reflexivity. Qed.
Lemma FL_step done i j rest : FL = done ++ (i, j) :: rest ->
  (i < 6)%nat /\ (j < 6)%nat /\ ((i + j < plen done)%nat \/ ((i + j)%nat = plen done /\ cnt done (i + j) = 0%nat)).
Proof.
  intros E. pose proof FL_check_ok as C. unfold FL_check in C. rewrite forallb_forall in C.
  assert (Hq : (length done < 36)%nat). { apply (f_equal (@length _)) in E. rewrite app_length in E. cbn [length] in E. change (length FL) with 36%nat in E. lia. }
  specialize (C (length done) ltac:(apply in_seq; lia)).
  assert (E1 : skipn (length done) FL = (i, j) :: rest) by (rewrite E, skipn_app, skipn_all, Nat.sub_diag; reflexivity).
  assert (E2 : firstn (length done) FL = done) by (rewrite E, firstn_app, firstn_all, Nat.sub_diag; cbn [firstn]; apply app_nil_r).
  rewrite E1, E2 in C. apply andb_true_iff in C as [C C3]. apply andb_true_iff in C as [C1 C2]. apply Nat.ltb_lt in C1, C2. split; auto. split; auto.
  apply orb_true_iff in C3 as [C3|C3]; [left; now apply Nat.ltb_lt|]. apply andb_true_iff in C3 as [C3 C4]. apply Nat.eqb_eq in C3, C4. auto.
Qed.
Lemma cnt_snoc l i j t : cnt (l ++ [(i, j)]) t = (cnt l t + if Nat.eqb (i + j) t then 1 else 0)%nat.
Proof. unfold cnt. rewrite filter_app, app_length. f_equal. cbn [filter fst snd]. now destruct (Nat.eqb (i + j) t). Qed.
Lemma plen_snoc l i j : plen (l ++ [(i, j)]) = if Nat.ltb (i + j) (plen l) then plen l else S (plen l).
Proof. unfold plen. now rewrite fold_left_app. Qed.
Lemma set_nth_length {A} (l : list A) i x : length (set_nth l i x) = length l.
Proof. revert i. induction l as [|y l IH]; intros [|i]; cbn [set_nth length]; auto. Qed.
Lemma set_nth_get {A} (l : list A) i x j : nth_error (set_nth l i x) j = if Nat.eqb i j then (if Nat.ltb i (length l) then Some x else None) else nth_error l j.
Proof.
  revert i j. induction l as [|y l IH]; intros [|i] [|j]; cbn [set_nth nth_error length Nat.eqb]; auto.
  - destruct (Nat.eqb i j); auto.
  - rewrite IH. destruct (Nat.eqb i j); auto.
Qed.

Section ExtProofs.
Context {p : positive}.
Notation Fp := (F p).
Notation AV := (AV p).
Notation crt := (crt p).
Notation vec := (list crt).
Variables (lb : nat) (m : positive).
Notation env := (env (p:=p)).
Notation hcalc := (hcalc lb).
Hypothesis Hp : prime (Z.pos p).
Hypothesis Hlb : (1 <= lb < 64)%nat.
Hypothesis Hlb2 : (2 * lb <= CAPACITY p)%nat.
Hypothesis Hm : 1 < Z.pos m.
Add Ring Fring : (F_ring p) (morphism (F_morph p), constants [Fcst]).
Add Ring Fringm : (F_ring m) (morphism (F_morph m), constants [Fcst]).
Variables (ch : fpchip p) (n k : nat).
Hypothesis HN : fpchip_new m n k = Some ch.
Hypothesis HK : fp_params (p:=p) lb m n k.
Notation mz := (Z.pos m).
Notation Fm := (F m).
Notation M2 := (2 ^ Z.of_nat (bits mz)).
Notation W := (2 ^ Z.of_nat (n * k + NUM_BITS p)).
Notation frep := (frep (p:=p) m n).
Notation fred := (fred (p:=p) m n).
Notation fcan := (fcan (p:=p) m n).
Notation isk := (isk k).
Notation lg := (log2_ceil (Z.of_nat k)).
Notation islk := (islk k).
Notation room := (room (p:=p) lb n k).
Notation visk := (visk k).
Notation vism := (vism n k).
Notation vrep := (vrep m n).
Notation vred := (vred m n).
Notation vcan := (vcan m n).
Notation G_mul := (g_mul_nc lb m Hp Hlb Hlb2 Hm ch n k HN HK).
Notation G_add := (g_add lb m Hlb Hlb2 n k).
Notation G_sub := (g_sub lb m Hlb Hlb2 n k).
Notation G_smul := (g_smul lb m Hlb Hlb2 n k).
Notation G_smul_add := (g_smul_add lb m Hlb Hlb2 n k).



Ltac inc1 := first [ assumption | apply incl_refl | (apply incl_appl; inc1) | (apply incl_appr; inc1) ].
Lemma cpre_incl (L L' : list AV) (c : crt) : cpre L c -> incl L L' -> cpre L' c.
Proof. intros H I x Hx. auto. Qed.
Lemma vpre_incl (L L' : list AV) (c : vec) : vpre L c -> incl L L' -> vpre L' c.
Proof. intros H I x Hx. auto. Qed.
Ltac inc := cbn [app]; first [ assumption | (unfold cpre, vpre; inc1) | (eapply cpre_incl; [eassumption|inc1]) | (eapply vpre_incl; [eassumption|inc1]) ].
Tactic Notation "nb" uconstr(lem) := eapply h_bind; [eapply lem; try inc; try eassumption|]; cbv beta; [..|let c := fresh "c" in let K := fresh "K" in intros c K; cbn [app]].
Ltac fwd1 :=
  match goal with
  | H : _ /\ _ |- _ => lazymatch type of H with (_ <= _ < _)%nat => fail | _ => destruct H end
  | A : fred ?h ?e ?c ?v |- _ => lazymatch goal with _ : frep h e c M2 v |- _ => fail | _ => pose proof (fred_frep lb m Hlb Hlb2 n h e c v A) end
  | H : forall h Ba Bb u v, frep h ?e ?a Ba u -> frep h ?e ?b Bb v -> _, A : frep ?h ?e ?a ?Ba ?u, B : frep ?h ?e ?b ?Bb ?v |- _ => specialize (H h Ba Bb u v A B); cbv beta in H
  | H : forall h Ba Bb u v, frep h ?e ?a Ba u -> frep h ?e ?a Bb v -> _, A : frep ?h ?e ?a ?Ba ?u |- _ => specialize (H h Ba Ba u u A A); cbv beta in H
  | H : forall h Ba u, frep h ?e ?a Ba u -> _, A : frep ?h ?e ?a ?Ba ?u |- _ => specialize (H h Ba u A); cbv beta in H
  end.
Ltac fwd := repeat fwd1.
Lemma vism2 (a0 a1 : crt) : isk a0 n -> isk a1 n -> vism [a0; a1].
Proof. intros. constructor; auto. Qed.
Lemma vrep2 h e (a0 a1 : crt) B x0 x1 : vrep h e [a0; a1] B [x0; x1] <-> frep h e a0 B x0 /\ frep h e a1 B x1.
Proof. split; [intros H; inversion H; subst; inversion H5; subst; auto|intros [? ?]; repeat constructor; auto]. Qed.
Lemma vred2 h e (a0 a1 : crt) x0 x1 : vred h e [a0; a1] [x0; x1] <-> fred h e a0 x0 /\ fred h e a1 x1.
Proof. split; [intros H; inversion H; subst; inversion H5; subst; auto|intros [? ?]; repeat constructor; auto]. Qed.
Lemma frep_pos h e (c : crt) B x : frep h e c B x -> 0 <= B. Proof. intros (z & _ & H & _). lia. Qed.
Lemma frep_eq h e (c : crt) B x B' x' : frep h e c B x -> B = B' -> x = x' -> frep h e c B' x'. Proof. now intros ? <- <-. Qed.
Lemma frep_le h e (c : crt) B x B' : frep h e c B x -> B <= B' -> frep h e c B' x. Proof. intros (z & A1 & A2 & A3 & A4) H. exists z. repeat split; auto; try lia; now apply A4. Qed.

(** ** Fp2: [rep2 h e a B x] when the two coordinates of [a] represent [x] *)
Definition rep2 (h : Prop) (e : env) (a : vec) (B : Z) (x : x2 m) : Prop := vrep h e a B [fst x; snd x].
Definition red2 (h : Prop) (e : env) (a : vec) (x : x2 m) : Prop := vred h e a [fst x; snd x].
Lemma red2_rep2 h e a x : red2 h e a x -> rep2 h e a M2 x. Proof. apply (vred_vrep lb m Hlb Hlb2). Qed.

Section Ops.
Variables (L : list AV) (Pre : env -> Prop) (Hon : Prop).
Lemma l2_mul_nc (a b : vec) ba bb : vpre L a -> vpre L b -> visk a ba -> visk b bb -> (Hon -> length a = 2%nat /\ length b = 2%nat) ->
  hcalc L Pre Hon (fp2_mul_no_carry ch a b) (fun o => length a = 2%nat /\ length b = 2%nat /\ length o = 2%nat /\ visk o (lg + ba + bb + 1))
    (fun e o => forall h Ba Bb x y, rep2 h e a Ba x -> rep2 h e b Bb y -> rep2 h e o (2 * (Ba * Bb)) (x2_mul x y)) vcells.
Proof.
  intros Ca Cb Ka Kb HL. unfold fp2_mul_no_carry.
  eapply h_assert_bind. { intros Hh _. destruct (HL Hh) as [-> _]. reflexivity. } intros La. apply Nat.eqb_eq in La.
  eapply h_assert_bind. { intros Hh _. destruct (HL Hh) as [_ ->]. reflexivity. } intros Lb. apply Nat.eqb_eq in Lb. cbv beta.
  apply len2 in La as (a0 & a1 & ->), Lb as (b0 & b1 & ->). cbn [list_prod map app].
  apply vpre_cons in Ca as [Ca0 Ca1], Cb as [Cb0 Cb1]. apply vpre_cons in Ca1 as [Ca1 _], Cb1 as [Cb1 _].
  unfold ExtProofs.visk in Ka, Kb. inversion Ka as [|? ? Ka0 Ka1]; subst. inversion Ka1 as [|? ? Ka2 _]; subst. inversion Kb as [|? ? Kb0 Kb1]; subst. inversion Kb1 as [|? ? Kb2 _]; subst. 
  eapply h_bind; [apply (h_mapM lb L Pre Hon _ (fun _ c => islk c (lg + ba + bb)) (fun e xy c => forall h Ba Bb u v, frep h e (fst xy) Ba u -> frep h e (snd xy) Bb v -> frep h e c (Ba * Bb) (u * v)%F) ccells)|]; cbv beta.
  { intros xy Hxy. cbn [In] in Hxy. destruct Hxy as [<-|[<-|[<-|[<-|[]]]]]; cbn [fst snd]; apply G_mul; auto. }
  intros ab Hab. inversion Hab as [|? c0 ? ab1 K0 H1]; subst. inversion H1 as [|? c1 ? ab2 K1 H2]; subst. inversion H2 as [|? c2 ? ab3 K2 H3]; subst. inversion H3 as [|? c3 ? ab4 K3 H4]; subst. inversion H4; subst. clear Hab H1 H2 H3 H4.
  cbn [flat_map]. rewrite app_nil_r, <- !app_assoc.
  do 4 (eapply h_lift_bind; [intros; cbn [nth_error]; eauto|intros ? E; cbn [nth_error] in E; injection E as <-]).
  nb (G_sub). nb (G_add).
  apply h_ret.
  - repeat split; auto. repeat constructor; auto; try apply K; try apply K4; (eapply Nat.le_trans; [apply K || apply K4|lia]).
  - apply vpre_cons. split; [inc|]. apply vpre_cons. split; [inc|]. intros x [].
  - intros e [[[HP HR] R1] R2] h Ba Bb x y Hx Hy. unfold rep2 in *. apply vrep2 in Hx as [X0 X1], Hy as [Y0 Y1]. apply vrep2. cbn [fst snd x2_mul].
    inversion HR as [|? ? ? ? Q0 HR1]; subst. inversion HR1 as [|? ? ? ? Q1 HR2]; subst. inversion HR2 as [|? ? ? ? Q2 HR3]; subst. inversion HR3 as [|? ? ? ? Q3 _]; subst. cbn [fst snd] in *. fwd.
    split; eapply frep_eq; eauto; ring.
Qed.

Lemma l2_conjugate (a : vec) : vpre L a -> vism a -> (Hon -> length a = 2%nat /\ zcap (p:=p) n k) -> (Hon -> Pre hval -> exists x, red2 True hval a x) ->
  hcalc L Pre Hon (fp2_conjugate lb ch a) (fun o => length a = 2%nat /\ length o = 2%nat /\ vism o) (fun e o => forall h x, red2 h e a x -> red2 h e o (x2_conj x)) vcells.
Proof.
  intros Ca Ka HL HH. unfold fp2_conjugate.
  destruct a as [|a0 [|a1 [|a2 a]]]; try (eapply (h_lift lb L Pre Hon None); intros Hh; exfalso; destruct (HL Hh); discriminate).
  all: try (eapply h_post; [apply (h_lift lb L Pre Hon (@None vec)); intros Hh; exfalso; destruct (HL Hh); cbn [length] in *; lia| | |]; cbv beta; intros; discriminate).
  apply vpre_cons in Ca as [Ca0 Ca1]. apply vpre_cons in Ca1 as [Ca1 _]. inversion Ka as [|? ? Ka0 Ka1]; subst. inversion Ka1 as [|? ? Ka2 _]; subst.
  eapply h_bind; [apply (f_negate lb m Hp Hlb Hlb2 Hm ch n k HN HK); auto; try (intros Hh; now destruct (HL Hh))|].
  { intros Hh HP. destruct (HH Hh HP) as (x & Hx). apply vred2 in Hx as [? ?]. eauto. }
  cbv beta. intros c K. apply h_ret; [split; [auto|split; [auto|apply vism2; auto]]| |].
  - apply vpre_cons. split; [inc|]. apply vpre_cons. split; [inc|]. intros x [].
  - intros e [HP R] h x Hx. apply vred2 in Hx as [X0 X1]. apply vred2. cbn [x2_conj fst snd]. auto.
Qed.
Lemma l2_neg_conjugate (a : vec) : vpre L a -> vism a -> (Hon -> length a = 2%nat /\ zcap (p:=p) n k) -> (Hon -> Pre hval -> exists x, red2 True hval a x) ->
  hcalc L Pre Hon (fp2_neg_conjugate lb ch a) (fun o => length a = 2%nat /\ length o = 2%nat /\ vism o) (fun e o => forall h x, red2 h e a x -> red2 h e o (x2_opp (x2_conj x))) vcells.
Proof.
  intros Ca Ka HL HH. unfold fp2_neg_conjugate.
  destruct a as [|a0 [|a1 [|a2 a]]]; try (eapply (h_lift lb L Pre Hon None); intros Hh; exfalso; destruct (HL Hh); discriminate).
  all: try (eapply h_post; [apply (h_lift lb L Pre Hon (@None vec)); intros Hh; exfalso; destruct (HL Hh); cbn [length] in *; lia| | |]; cbv beta; intros; discriminate).
  apply vpre_cons in Ca as [Ca0 Ca1]. apply vpre_cons in Ca1 as [Ca1 _]. inversion Ka as [|? ? Ka0 Ka1]; subst. inversion Ka1 as [|? ? Ka2 _]; subst.
  eapply h_bind; [apply (f_negate lb m Hp Hlb Hlb2 Hm ch n k HN HK); auto; try (intros Hh; now destruct (HL Hh))|].
  { intros Hh HP. destruct (HH Hh HP) as (x & Hx). apply vred2 in Hx as [? ?]. eauto. }
  cbv beta. intros c K. apply h_ret; [split; [auto|split; [auto|apply vism2; auto]]| |].
  - apply vpre_cons. split; [inc|]. apply vpre_cons. split; [inc|]. intros x [].
  - intros e [HP R] h x Hx. apply vred2 in Hx as [X0 X1]. apply vred2. cbn [x2_conj x2_opp fst snd]. split; auto. replace (- - snd x)%F with (snd x) by ring. auto.
Qed.
Lemma l2_w6 (a : vec) ba xi0 : vpre L a -> visk a ba -> - 2 ^ 63 < xi0 < 2 ^ 63 -> (Hon -> length a = 2%nat) ->
  hcalc L Pre Hon (mul_no_carry_w6 xi0 a) (fun o => length a = 2%nat /\ length o = 2%nat /\ visk o (ba + log2_ceil (Z.abs xi0) + 1))
    (fun e o => forall h Ba x, rep2 h e a Ba x -> rep2 h e o (Ba * (Z.abs xi0 + 1)) (x2_mul x (xi xi0))) vcells.
Proof.
  intros Ca Ka Hxi HL. unfold mul_no_carry_w6.
  destruct a as [|a0 [|a1 [|a2 a]]]; try (eapply (h_lift lb L Pre Hon None); intros Hh; exfalso; specialize (HL Hh); discriminate).
  all: try (eapply h_post; [apply (h_lift lb L Pre Hon (@None vec)); intros Hh; exfalso; specialize (HL Hh); cbn [length] in *; lia| | |]; cbv beta; intros; discriminate).
  apply vpre_cons in Ca as [Ca0 Ca1]. apply vpre_cons in Ca1 as [Ca1 _]. inversion Ka as [|? ? Ka0 Ka1]; subst. inversion Ka1 as [|? ? Ka2 _]; subst.
  nb (G_smul). nb (G_sub). nb (G_smul_add).
  apply h_ret.
  - repeat split; auto. repeat constructor; auto; try apply K0; try apply K1; (eapply Nat.le_trans; [apply K0 || apply K1|lia]).
  - apply vpre_cons. split; [inc|]. apply vpre_cons. split; [inc|]. intros x [].
  - intros e [[[HP R0] R1] R2] h Ba x Hx. unfold rep2 in *. apply vrep2 in Hx as [X0 X1]. apply vrep2. unfold xi, x2_mul. cbn [fst snd]. fwd. 
    split; eapply frep_eq; eauto; ring.
Qed.
End Ops.

(** ** Fp12 *)
Definition psum (f : nat -> nat -> Fm) (l : list (nat * nat)) (t : nat) : Fm :=
  fold_left (fun acc ij => if Nat.eqb (fst ij + snd ij) t then (acc + f (fst ij) (snd ij))%F else acc) l F0.
Lemma psum_snoc f l i j t : psum f (l ++ [(i, j)]) t = if Nat.eqb (i + j) t then (psum f l t + f i j)%F else psum f l t.
Proof. unfold psum. now rewrite fold_left_app. Qed.
Lemma psum_cnt0 f l t : cnt l t = 0%nat -> psum f l t = F0.
Proof.
  induction l as [|[i j] l IH] using rev_ind; auto. rewrite cnt_snoc, psum_snoc. destruct (Nat.eqb (i + j) t); [lia|]. intros H. apply IH. lia.
Qed.
Section Acc.
Variable b0 : nat.
Definition accI (done : list (nat * nat)) (x : vec) : Prop :=
  length x = plen done /\ forall t c, nth_error x t = Some c -> islk c (b0 + cnt done t).
Definition accJ (h : Prop) (e : env) (done : list (nat * nat)) (x : vec) (f : nat -> nat -> Fm) (B : Z) : Prop :=
  forall t c, nth_error x t = Some c -> frep h e c (Z.of_nat (cnt done t) * B) (psum f done t).
Lemma in_vcells (x : vec) t c L : nth_error x t = Some c -> vpre L x -> cpre L c.
Proof. intros H HP. eapply vpre_in; eauto. eapply nth_error_In; eauto. Qed.
Lemma l_acc_add (L : list AV) (Pre : env -> Prop) (Hon : Prop) done i j (x : vec) (c : crt) :
  vpre L x -> cpre L c -> islk c b0 -> accI done x -> (i + j < plen done)%nat ->
  hcalc L Pre Hon (acc_add x (i + j) c) (accI (done ++ [(i, j)]))
    (fun e x' => forall h f B, accJ h e done x f B -> frep h e c B (f i j) -> accJ h e (done ++ [(i, j)]) x' f B) vcells.
Proof.
  intros Cx Cc Kc [Ix1 Ix2] Hij. unfold acc_add.
  eapply h_lift_bind. { intros _ _ _. destruct (nth_error x (i + j)) eqn:E; eauto. apply nth_error_None in E. lia. } intros old Eo. cbv beta.
  pose proof (Ix2 _ _ Eo) as Ko. pose proof (in_vcells _ _ _ _ Eo Cx) as Co.
  nb (G_add). apply h_ret.
  - split. { rewrite set_nth_length, plen_snoc. destruct (Nat.ltb_spec (i + j) (plen done)); lia. }
    intros t c'. rewrite set_nth_get, cnt_snoc. destruct (Nat.eqb_spec (i + j) t) as [<-|Hne].
    + destruct (Nat.ltb _ _); [|discriminate]. intros [= <-]. eapply (islk_le lb m Hlb Hlb2); [exact K|lia].
    + intros E. rewrite Nat.add_0_r. eauto.
  - apply vpre_of. intros c' Hc'. apply In_nth_error in Hc' as (t & Et). rewrite set_nth_get in Et. destruct (Nat.eqb_spec (i + j) t) as [Eij|Hne].
    + destruct (Nat.ltb _ _); [|discriminate]. injection Et as <-. inc.
    + eapply cpre_incl; [eapply in_vcells; eauto|inc1].
  - intros e [HP R] h f B HJ Hc t c'. rewrite set_nth_get, cnt_snoc, psum_snoc. destruct (Nat.eqb_spec (i + j) t) as [<-|Hne].
    + destruct (Nat.ltb _ _); [|discriminate]. intros [= <-]. eapply frep_eq; [apply (R h _ _ _ _ (HJ _ _ Eo) Hc)|lia|auto].
    + intros E. rewrite Nat.add_0_r. auto.
Qed.
Lemma acc_push done i j (x : vec) (c : crt) : islk c b0 -> accI done x -> (i + j)%nat = plen done -> cnt done (i + j) = 0%nat -> accI (done ++ [(i, j)]) (x ++ [c]).
Proof.
  intros Kc [Ix1 Ix2] Hij H0. split. { rewrite app_length, plen_snoc. cbn [length]. destruct (Nat.ltb_spec (i + j) (plen done)); lia. }
  intros t c' Et. rewrite cnt_snoc. destruct (Nat.ltb_spec t (length x)).
  - rewrite nth_error_app1 in Et by auto. eapply (islk_le lb m Hlb Hlb2); [eauto|lia].
  - rewrite nth_error_app2 in Et by auto. destruct (t - length x)%nat eqn:E; [|destruct n0; discriminate]. cbn in Et. injection Et as <-. eapply (islk_le lb m Hlb Hlb2); [exact Kc|lia].
Qed.
Lemma acc_pushJ h e done i j (x : vec) (c : crt) f B : accI done x -> (i + j)%nat = plen done -> cnt done (i + j) = 0%nat -> 
  accJ h e done x f B -> frep h e c B (f i j) -> accJ h e (done ++ [(i, j)]) (x ++ [c]) f B.
Proof.
  intros [Ix1 Ix2] Hij H0 HJ Hc t c' Et. rewrite cnt_snoc, psum_snoc. destruct (Nat.ltb_spec t (length x)).
  - rewrite nth_error_app1 in Et by auto. destruct (Nat.eqb_spec (i + j) t); [lia|]. rewrite Nat.add_0_r. auto.
  - rewrite nth_error_app2 in Et by auto. destruct (t - length x)%nat eqn:E; [|destruct n0; discriminate]. cbn in Et. injection Et as <-.
    assert (t = (i + j)%nat) by lia. subst t. rewrite Nat.eqb_refl, H0, psum_cnt0 by auto. eapply frep_eq; [exact Hc|lia|ring].
Qed.
End Acc.
End ExtProofs.
