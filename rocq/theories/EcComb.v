(** Integer linear combinations of curve points: [zmul z P] is [z]*P for an integer [z], [lcf c Bs] is the sum of
    [c i * B_i]. Helper algebra for the multi-scalar multiplication proofs. *)
From Coq Require Import ZArith Znumtheory Lia List Bool.
From Verif Require Import Field EcGroup.
Import ListNotations.
Local Open Scope Z_scope.

Section Comb.
Context (m : positive) (Hm : prime (Z.pos m)) (H3 : 3 < Z.pos m) (b : F m) (Hb : b <> F0).
Notation pt := (pt m).
Notation onc := (onc m b).
Notation eadd := (eadd m).
Notation eneg := (eneg m).
Notation emul := (emul m).
Notation comm := (eadd_comm m Hm H3 b).
Notation assoc := (eadd_assoc m Hm H3 b Hb).
Notation ao := (eadd_onc m Hm H3 b).

Definition zmul (z : Z) (P : pt) : pt := if z <? 0 then eneg (emul (Z.to_nat (- z)) P) else emul (Z.to_nat z) P.
Fixpoint lcf (c : nat -> Z) (Bs : list pt) : pt :=
  match Bs with [] => None | B :: Bs => eadd (zmul (c 0%nat) B) (lcf (fun j => c (S j)) Bs) end.

Lemma eadd_swap P Q R S : onc P -> onc Q -> onc R -> onc S -> eadd (eadd P Q) (eadd R S) = eadd (eadd P R) (eadd Q S).
Proof.
  intros A B C D. rewrite !assoc; auto using ao. f_equal. rewrite <- (assoc Q R S), (comm Q R), assoc; auto using ao.
Qed.
Notation nno := (eneg_onc m Hm b).
Lemma eneg_add P Q : onc P -> onc Q -> eneg (eadd P Q) = eadd (eneg P) (eneg Q).
Proof.
  intros A B. symmetry. apply (eadd_none m Hm b); auto using ao, nno.
  rewrite eadd_swap; auto using ao, nno. rewrite !(eadd_neg_r m Hm). reflexivity.
Qed.
Lemma emul_none k : emul k None = None.
Proof. induction k; cbn; auto. Qed.
Lemma zmul_none z : zmul z None = None.
Proof. unfold zmul. destruct (z <? 0); now rewrite emul_none. Qed.
Lemma zmul_onc z P : onc P -> onc (zmul z P).
Proof. intros A. unfold zmul. destruct (z <? 0); auto using nno, (emul_onc m Hm H3 b). Qed.
Lemma zmul_nat k P : zmul (Z.of_nat k) P = emul k P.
Proof. unfold zmul. destruct (Z.ltb_spec (Z.of_nat k) 0); [lia|]. now rewrite Nat2Z.id. Qed.
Lemma zmul_sub j k P : onc P -> zmul (Z.of_nat j - Z.of_nat k) P = eadd (emul j P) (eneg (emul k P)).
Proof.
  intros A. assert (E : forall i, onc (emul i P)) by (intros; now apply (emul_onc m Hm H3 b)). unfold zmul.
  destruct (Z.ltb_spec (Z.of_nat j - Z.of_nat k) 0).
  - replace (Z.to_nat (- (Z.of_nat j - Z.of_nat k))) with (k - j)%nat by lia. remember (k - j)%nat as d. replace k with (d + j)%nat by lia.
    rewrite (emul_add m Hm H3 b Hb d j P A), eneg_add, (comm (emul j P)), assoc by auto using ao, nno. now rewrite (eadd_neg_l m Hm), (eadd_0_r m).
  - replace (Z.to_nat (Z.of_nat j - Z.of_nat k)) with (j - k)%nat by lia. remember (j - k)%nat as d. replace j with (d + k)%nat by lia.
    rewrite (emul_add m Hm H3 b Hb d k P A), assoc by auto using ao, nno. now rewrite (eadd_neg_r m Hm), (eadd_0_r m).
Qed.
Lemma zsplit z : exists j k, z = Z.of_nat j - Z.of_nat k.
Proof. exists (Z.to_nat z), (Z.to_nat (- z)). lia. Qed.
Lemma zmul_add x y P : onc P -> zmul (x + y) P = eadd (zmul x P) (zmul y P).
Proof.
  intros A. assert (E : forall i, onc (emul i P)) by (intros; now apply (emul_onc m Hm H3 b)).
  destruct (zsplit x) as (j & k & ->), (zsplit y) as (j' & k' & ->).
  replace (Z.of_nat j - Z.of_nat k + (Z.of_nat j' - Z.of_nat k')) with (Z.of_nat (j + j') - Z.of_nat (k + k')) by lia.
  rewrite !zmul_sub, !(emul_add m Hm H3 b Hb), eneg_add by auto. apply eadd_swap; auto using nno.
Qed.
Lemma zmul_opp x P : onc P -> zmul (- x) P = eneg (zmul x P).
Proof.
  intros A. assert (E : forall i, onc (emul i P)) by (intros; now apply (emul_onc m Hm H3 b)).
  destruct (zsplit x) as (j & k & ->). replace (- (Z.of_nat j - Z.of_nat k)) with (Z.of_nat k - Z.of_nat j) by lia.
  rewrite !zmul_sub, eneg_add, (eneg_neg m Hm), comm; auto using nno.
Qed.
Lemma zmul_0 P : zmul 0 P = None. Proof. reflexivity. Qed.
Lemma zmul_1 P : zmul 1 P = P. Proof. change (eadd P None = P). apply (eadd_0_r m). Qed.
Lemma zmul_2 P : zmul 2 P = eadd P P. Proof. change (eadd P (eadd P None) = eadd P P). now rewrite (eadd_0_r m). Qed.

Lemma lcf_onc Bs : Forall onc Bs -> forall c, onc (lcf c Bs).
Proof. induction 1; intros c; cbn [lcf]; [exact I|]. apply ao; auto. now apply zmul_onc. Qed.
(** coefficients of points at infinity do not matter *)
Lemma lcf_ext Bs : forall c d, (forall j B, nth_error Bs j = Some B -> B = None \/ c j = d j) -> lcf c Bs = lcf d Bs.
Proof.
  induction Bs as [|B Bs IH]; intros c d H; cbn [lcf]; auto. f_equal.
  - destruct (H 0%nat B eq_refl) as [->| ->]; [now rewrite !zmul_none|reflexivity].
  - apply IH. intros j B' E. exact (H (S j) B' E).
Qed.
Lemma lcf_add Bs : Forall onc Bs -> forall c d, lcf (fun j => c j + d j) Bs = eadd (lcf c Bs) (lcf d Bs).
Proof.
  induction 1 as [|B Bs HB HBs IH]; intros c d; cbn [lcf]; auto.
  rewrite zmul_add by auto. rewrite (IH (fun j => c (S j)) (fun j => d (S j))). apply eadd_swap; auto using zmul_onc, lcf_onc.
Qed.
Lemma lcf_opp Bs : Forall onc Bs -> forall c, lcf (fun j => - c j) Bs = eneg (lcf c Bs).
Proof.
  induction 1 as [|B Bs HB HBs IH]; intros c; cbn [lcf]; auto.
  rewrite zmul_opp by auto. rewrite (IH (fun j => c (S j))). symmetry. apply eneg_add; auto using zmul_onc, lcf_onc.
Qed.
Lemma lcf_0 Bs : lcf (fun _ => 0) Bs = None.
Proof. induction Bs; cbn [lcf]; auto. Qed.
Definition unit_at (i : nat) (j : nat) : Z := if Nat.eqb j i then 1 else 0.
Lemma lcf_unit Bs : forall i B, nth_error Bs i = Some B -> lcf (unit_at i) Bs = B.
Proof.
  induction Bs as [|B0 Bs IH]; intros [|i] B E; try discriminate; cbn [lcf].
  - injection E as <-. replace (zmul (unit_at 0 0) B0) with B0 by (symmetry; apply zmul_1).
    rewrite (lcf_ext Bs _ (fun _ => 0)) by (intros; right; reflexivity). now rewrite lcf_0, (eadd_0_r m).
  - replace (zmul (unit_at (S i) 0) B0) with (@None (F m * F m)) by reflexivity. cbn [EcGroup.eadd]. now apply IH.
Qed.
(** the sum [t_1 * g_1 + ... + t_l * g_l] for natural multiples *)
Fixpoint msum (l : list (Z * pt)) : pt := match l with [] => None | (t, g) :: l => eadd (emul (Z.to_nat t) g) (msum l) end.
Lemma lcf_msum gs : forall ts c, length ts = length gs -> (forall i, (i < length gs)%nat -> c i = nth i ts 0 /\ 0 <= nth i ts 0) -> lcf c gs = msum (combine ts gs).
Proof.
  induction gs as [|g gs IH]; intros [|t ts] c L H; try discriminate; cbn [lcf combine msum]; auto. f_equal.
  - destruct (H 0%nat ltac:(cbn; lia)) as [-> G]. cbn in G. cbn [nth]. unfold zmul. destruct (Z.ltb_spec t 0); [lia|reflexivity].
  - apply IH; [now injection L|]. intros i Hi. exact (H (S i) ltac:(cbn; lia)).
Qed.
Lemma emul_mul j i g : onc g -> emul (j * i) g = emul j (emul i g).
Proof.
  intros O. induction j as [|j IH]; [reflexivity|]. cbn [Nat.mul EcGroup.emul]. rewrite (emul_add m Hm H3 b Hb) by exact O. now rewrite IH.
Qed.
Lemma zmul_kill u a g : onc g -> emul a g = None -> zmul (u * Z.of_nat a) g = None.
Proof.
  intros O E. assert (G : forall j, zmul (Z.of_nat j * Z.of_nat a) g = None).
  { intros j. rewrite <- Nat2Z.inj_mul, zmul_nat, emul_mul, E by exact O. apply emul_none. }
  destruct (Z.le_ge_cases 0 u) as [P|N].
  - rewrite <- (Z2Nat.id u P). apply G.
  - replace (u * Z.of_nat a) with (- (Z.of_nat (Z.to_nat (- u)) * Z.of_nat a)) by (rewrite Z2Nat.id by lia; ring).
    rewrite zmul_opp, G by exact O. reflexivity.
Qed.
(** a finite point of prime order [o] is killed only by multiples of [o] *)
Lemma prime_order g o a : onc g -> g <> None -> prime (Z.of_nat o) -> emul o g = None -> emul a g = None -> (Z.of_nat o | Z.of_nat a).
Proof.
  intros O Ng Po Eo Ea. destruct (Zdivide_dec (Z.of_nat o) (Z.of_nat a)) as [D|D]; [exact D|]. exfalso. apply Ng.
  destruct (rel_prime_bezout _ _ (prime_rel_prime _ Po _ D)) as [u v Huv].
  rewrite <- (zmul_1 g), <- Huv, zmul_add, (zmul_kill u o), (zmul_kill v a) by assumption. reflexivity.
Qed.
End Comb.
