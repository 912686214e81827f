(** Executable checkers used only for concrete examples and counterexamples:
    [satb lb rho s] decides whether [rho] satisfies everything recorded in [s]; [honest s] is the assignment that
    the library's own witness gives. Also a trial-division primality test for small example primes. *)
From Coq Require Import ZArith Znumtheory Lia List Bool.
From Verif Require Import Field Context ContextProofs Spec.
Import ListNotations.
Local Open Scope Z_scope.

Section SatCheck.
Context {p : positive}.
Notation Fp := (F p).

Definition cell_eqb (a b : cell) : bool :=
  Nat.eqb (c_tid a) (c_tid b) && Nat.eqb (c_ctx a) (c_ctx b) && Nat.eqb (c_off a) (c_off b).
Lemma cell_eqb_eq a b : cell_eqb a b = true <-> a = b.
Proof.
  unfold cell_eqb. rewrite !andb_true_iff, !Nat.eqb_eq. destruct a, b; cbn. split; [intros [[-> ->] ->]; auto|].
  intros H; injection H; auto.
Qed.

(** the assignment computed by the library *)
Definition honest (s : st p) (c : cell) : Fp :=
  if Nat.eqb (c_tid c) (s_tid s) && Nat.eqb (c_ctx c) (s_cid s) then
    match nth_error (advice s) (c_off c) with Some v => aeval v | None => F0 end
  else F0.
Lemma honest_agree s : Agree (honest s) s.
Proof. intros i v H. unfold honest, cl. cbn. now rewrite !Nat.eqb_refl, H. Qed.

(** a dishonest assignment: the honest one with some cells overwritten *)
Definition patch (rho : cell -> Fp) (l : list (nat * Fp)) (s : st p) (c : cell) : Fp :=
  match find (fun e => cell_eqb c (cl s (fst e))) l with Some e => snd e | None => rho c end.

Definition gateb (rho : cell -> Fp) (s : st p) (i : nat) : bool :=
  Feqb (rho (cl s i) + rho (cl s (i + 1)%nat) * rho (cl s (i + 2)%nat))%F (rho (cl s (i + 3)%nat)).
Definition satb (lb : nat) (rho : cell -> Fp) (s : st p) : bool :=
  forallb (fun ib => if (snd ib : bool) then gateb rho s (fst ib) else true)
          (combine (seq 0 (length (selector s))) (selector s))
  && forallb (fun e => Feqb (rho (fst e)) (rho (snd e))) (adv_eqs s)
  && forallb (fun e => Feqb (rho (snd e)) (fst e)) (const_eqs s)
  && forallb (fun e => val (avs rho (snd e)) <? 2 ^ Z.of_nat lb) (lookups s).

Lemma nth_combine_seq {A} (l : list A) k i x : nth_error l i = Some x -> In ((k + i)%nat, x) (combine (seq k (length l)) l).
Proof.
  revert k i. induction l as [|y l IH]; intros k [|i] H; try discriminate; cbn.
  - injection H as ->. left. f_equal. lia.
  - right. replace (k + S i)%nat with (S k + i)%nat by lia. now apply IH.
Qed.

Lemma satb_correct lb rho s : satb lb rho s = true -> Sat lb rho s.
Proof.
  unfold satb. rewrite !andb_true_iff, !forallb_forall. intros [[[H1 H2] H3] H4]. constructor.
  - intros i Hi. apply (nth_combine_seq _ 0) in Hi. apply H1 in Hi. cbn in Hi. now apply Feqb_eq in Hi.
  - intros a b Hab. apply H2 in Hab. now apply Feqb_eq in Hab.
  - intros c a Hc. apply H3 in Hc. now apply Feqb_eq in Hc.
  - intros t a Ht. apply H4 in Ht. apply Z.ltb_lt in Ht. pose proof (val_bounds p (avs rho a)). cbn in Ht. lia.
Qed.

(** run a program in a fresh context (not witness-gen-only), check the honest witness, return the result and final state *)
Definition run {A} (m : M p A) : option (A * st p) := m (new_ctx false 0 0 0).
Definition run_ok {A} (lb : nat) (m : M p A) (chk : A -> bool) : bool :=
  match run m with Some (a, s) => satb lb (honest s) s && chk a | None => false end.
Lemma run_ok_spec {A} lb (m : M p A) chk : run_ok lb m chk = true ->
  exists a s', m (new_ctx false 0 0 0) = Some (a, s') /\ Sat lb (honest s') s' /\ Agree (honest s') s' /\ chk a = true.
Proof.
  unfold run_ok, run. destruct (m _) as [[a s]|]; [|discriminate]. rewrite andb_true_iff. intros [H1 H2].
  exists a, s. split; auto. split; [now apply satb_correct|]. split; auto using honest_agree.
Qed.
(** run a program in a fresh context and check that a DISHONEST assignment (honest witness with some cells overwritten) satisfies every
    constraint and the predicate [chk] *)
Definition attack_ok {A} (lb : nat) (m : M p A) (l : list (nat * Fp)) (chk : (cell -> Fp) -> A -> bool) : bool :=
  match run m with Some (a, s) => let rho := patch (honest s) l s in satb lb rho s && chk rho a | None => false end.
Lemma attack_ok_spec {A} lb (m : M p A) l chk : attack_ok lb m l chk = true ->
  exists a s' sg, m (new_ctx false 0 0 0) = Some (a, s') /\ Sat lb sg s' /\ chk sg a = true.
Proof.
  unfold attack_ok, run. destruct (m _) as [[a s]|]; [|discriminate]. cbn zeta. rewrite andb_true_iff. intros [H1 H2].
  exists a, s, (patch (honest s) l s). split; auto. split; [now apply satb_correct|auto].
Qed.
(** the integer a returned cell carries *)
Definition avz (a : AV p) : Z := match av_val a with ATriv x => val x | _ => -1 end.
End SatCheck.

(** ** dishonest provers: run another program [evil] and use its cells as the assignment for the circuit of [m] *)
Definition attack2_ok {p} {A B} (lb : nat) (m : M p A) (evil : M p B) (chk : (cell -> F p) -> A -> bool) : bool :=
  match run m, run evil with Some (a, s), Some (_, s2) => satb lb (honest s2) s && chk (honest s2) a | _, _ => false end.
Lemma attack2_ok_spec {p} {A B} lb (m : M p A) (evil : M p B) chk : attack2_ok lb m evil chk = true ->
  exists a s' sg, m (new_ctx false 0 0 0) = Some (a, s') /\ Sat lb sg s' /\ chk sg a = true.
Proof.
  unfold attack2_ok, run. destruct (m _) as [[a s]|]; [|discriminate]. destruct (evil _) as [[b s2]|]; [|discriminate].
  rewrite andb_true_iff. intros [H1 H2]. exists a, s, (honest s2). split; auto. split; [now apply satb_correct|auto].
Qed.
(** the honest witness violates a copy constraint *)
Definition in_ctx {p} (s : st p) (c : cell) : bool :=
  Nat.eqb (c_tid c) (s_tid s) && Nat.eqb (c_ctx c) (s_cid s) && Nat.ltb (c_off c) (alen s).
Definition bad_eq {p} (s : st p) : bool :=
  existsb (fun e => in_ctx s (fst e) && in_ctx s (snd e) && negb (Feqb (honest s (fst e)) (honest s (snd e)))) (adv_eqs s).
Lemma in_ctx_honest {p} (s : st p) c rho : in_ctx s c = true -> Agree rho s -> rho c = honest s c.
Proof.
  unfold in_ctx. rewrite !andb_true_iff, !Nat.eqb_eq, Nat.ltb_lt. intros [[H1 H2] H3] HA.
  unfold honest. rewrite H1, H2, !Nat.eqb_refl. cbn [andb]. destruct (nth_error (advice s) (c_off c)) as [v|] eqn:E.
  - rewrite <- (HA _ _ E). f_equal. unfold cl. destruct c; cbn in *; subst; reflexivity.
  - apply nth_error_None in E. unfold alen in H3. lia.
Qed.
Lemma bad_eq_spec {p} lb (s : st p) : bad_eq s = true -> forall rho, Agree rho s -> ~ Sat lb rho s.
Proof.
  unfold bad_eq. rewrite existsb_exists. intros ([a b] & Hin & H) rho HA HS. cbn [fst snd] in H.
  rewrite !andb_true_iff in H. destruct H as [[H1 H2] H3]. apply negb_true_iff, Feqb_neq in H3. apply H3.
  rewrite <- (in_ctx_honest s a rho), <- (in_ctx_honest s b rho) by auto. eapply sat_eq; eauto.
Qed.

(** trial division *)
Fixpoint no_div (n : nat) (p : Z) : bool :=
  match n with
  | O => true
  | S n => (if Z.of_nat (S n) <=? 1 then true else negb (p mod Z.of_nat (S n) =? 0)) && no_div n p
  end.
Lemma no_div_spec n p : no_div n p = true -> forall d, 1 < d <= Z.of_nat n -> ~ (d | p).
Proof.
  induction n as [|n IH]; intros H d Hd; [cbn in Hd; lia|]. cbn [no_div] in H. apply andb_prop in H as [H1 H2].
  destruct (Z.eq_dec d (Z.of_nat (S n))) as [->|]; [|apply IH; auto; lia].
  destruct (Z.leb_spec (Z.of_nat (S n)) 1); [lia|]. apply negb_true_iff, Z.eqb_neq in H1.
  intros Hdiv. apply Z.mod_divide in Hdiv; lia.
Qed.
Lemma small_prime p : 1 < p -> no_div (Z.to_nat (p - 1)) p = true -> prime p.
Proof.
  intros Hp H. apply prime_alt. split; auto. intros n Hn. apply (no_div_spec _ _ H). lia.
Qed.
Lemma prime_101 : prime 101.
Proof. apply small_prime; [lia|reflexivity]. Qed.
Lemma prime_257 : prime 257.
Proof. apply small_prime; [lia|reflexivity]. Qed.
