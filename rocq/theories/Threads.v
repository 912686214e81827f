(** Model of the thread pools that hand out contexts: [SinglePhaseCoreManager], [MultiPhaseCoreManager] and [parallelize_core]
    (halo2-base/src/gates/flex_gate/threads/{single_phase,multi_phase,parallelize}.rs), as used through [BaseCircuitBuilder]
    (halo2-base/src/gates/circuit/builder.rs:214-247).
    Simplification: a context is represented by its tag (type id, context id); the work done inside a context does not change its tag.
    A type id is the phase number: the three strings of single_phase.rs:117-122 are distinct. *)
From Coq Require Import Lia List Bool Arith FinFun.
From Verif Require Import Context.
Import ListNotations.

(** one pool per phase, contexts in the order of [threads] *)
Definition pools := list (list tag).

(** single_phase.rs:115-122 [type_of]; [None] is the panic *)
Definition type_of (phase : nat) : option nat := if Nat.ltb phase 3 then Some phase else None.
(** single_phase.rs:125-133 [new_context] *)
Definition new_context (phase id : nat) : option tag := option_map (fun t => (t, id)) (type_of phase).
(** multi_phase.rs:101-108 [touch] *)
Definition touch (phase : nat) (m : pools) : pools := m ++ repeat [] (S phase - length m).
Fixpoint upd {A} (l : list A) (i : nat) (f : A -> option A) : option (list A) :=
  match l, i with
  | [], _ => None
  | x :: l, O => option_map (fun y => y :: l) (f x)
  | x :: l, S i => option_map (cons x) (upd l i f)
  end.
(** single_phase.rs:137-141 [new_thread] *)
Definition sp_new_thread (phase : nat) (ts : list tag) : option (list tag) := option_map (fun t => ts ++ [t]) (new_context phase (length ts)).
(** single_phase.rs:99-105 [main] *)
Definition sp_main (phase : nat) (ts : list tag) : option (list tag) := match ts with [] => sp_new_thread phase ts | _ => Some ts end.
(** all the contexts of [parallelize_core], parallelize.rs:20-22 *)
Fixpoint new_contexts (phase from n : nat) : option (list tag) :=
  match n with
  | O => Some []
  | S n => match new_context phase from, new_contexts phase (S from) n with Some t, Some l => Some (t :: l) | _, _ => None end
  end.
(** parallelize.rs:9-29 [parallelize_core] on [n] inputs: the contexts handed to the closures (in input order) and the pool afterwards *)
Definition parallelize_core (phase n : nat) (ts : list tag) : option (list tag * list tag) :=
  option_map (fun l => (l, ts ++ l)) (new_contexts phase (length ts) n).

(** the calls a user of [BaseCircuitBuilder] can make (builder.rs:216-247) *)
Inductive top := TMain (phase : nat) | TNewThread (phase : nat) | TParallelize (phase n : nat) | TClear.
Definition top_step (o : top) (m : pools) : option pools :=
  match o with
  | TMain ph => upd (touch ph m) ph (sp_main ph)
  | TNewThread ph => upd (touch ph m) ph (sp_new_thread ph)
  | TParallelize ph n => upd m ph (fun ts => option_map snd (parallelize_core ph n ts))
  | TClear => Some (map (fun _ => []) m)
  end.
Fixpoint top_run (l : list top) (m : pools) : option pools :=
  match l with [] => Some m | o :: l => match top_step o m with Some m' => top_run l m' | None => None end end.
(** multi_phase.rs:35-40 [new]: one empty pool for phase 0 *)
Definition pools0 : pools := [[]].

(** ** Proofs *)
Lemma new_contexts_spec ph n : forall from l, new_contexts ph from n = Some l -> l = map (fun i => (ph, i)) (seq from n) /\ (0 < n -> ph < 3).
Proof.
  induction n as [|n IH]; intros from l; cbn; [intros [= <-]; split; [auto|lia]|]. unfold new_context, type_of. destruct (Nat.ltb_spec ph 3); [|discriminate]. cbn.
  destruct (new_contexts ph (S from) n) as [l'|] eqn:E; [|discriminate]. intros [= <-]. apply IH in E as [-> _]. auto.
Qed.
Definition pool_ok (ph : nat) (ts : list tag) : Prop := ts = map (fun i => (ph, i)) (seq 0 (length ts)) /\ (ts <> [] -> ph < 3).
Lemma pool_app ph ts n : pool_ok ph ts -> (0 < n -> ph < 3) -> pool_ok ph (ts ++ map (fun i => (ph, i)) (seq (length ts) n)).
Proof.
  intros [H1 H2] Hn. split.
  - rewrite app_length, map_length, seq_length, seq_app, map_app. f_equal. exact H1.
  - destruct ts as [|t ts]; [|intros _; apply H2; discriminate]. destruct n; [intros HH; exfalso; now apply HH|]. intros _. apply Hn. lia.
Qed.
Definition pools_ok (m : pools) : Prop := forall ph ts, nth_error m ph = Some ts -> pool_ok ph ts.
Lemma upd_spec {A} (f : A -> option A) l : forall i l', upd l i f = Some l' -> exists x y, nth_error l i = Some x /\ f x = Some y /\
  nth_error l' i = Some y /\ forall j, j <> i -> nth_error l' j = nth_error l j.
Proof.
  induction l as [|a l IH]; intros [|i] l'; cbn; try discriminate.
  - destruct (f a) as [b|] eqn:E; [|discriminate]. intros [= <-]. exists a, b. split; auto. split; auto. split; auto. intros [|j] H; [congruence|auto].
  - destruct (upd l i f) as [l2|] eqn:E; [|discriminate]. intros [= <-]. destruct (IH _ _ E) as (x & y & H1 & H2 & H3 & H4). exists x, y. split; auto. split; auto. split; auto.
    intros [|j] H; [auto|]. cbn. apply H4. lia.
Qed.
Lemma touch_ok ph m : pools_ok m -> pools_ok (touch ph m).
Proof.
  intros H i ts. unfold touch. destruct (Nat.lt_ge_cases i (length m)) as [Hi|Hi].
  - rewrite nth_error_app1 by auto. apply H.
  - rewrite nth_error_app2 by auto. intros E. apply nth_error_In, repeat_spec in E. subst. split; [auto|intros HH; congruence].
Qed.
Lemma step_ok o m m' : pools_ok m -> top_step o m = Some m' -> pools_ok m'.
Proof.
  assert (G : forall m m' ph f, pools_ok m -> upd m ph f = Some m' -> (forall ts ts', pool_ok ph ts -> f ts = Some ts' -> pool_ok ph ts') -> pools_ok m').
  { intros m1 m2 ph f H E Hf i ts Hi. destruct (upd_spec _ _ _ _ E) as (x & y & H1 & H2 & H3 & H4). destruct (Nat.eq_dec i ph) as [->|Hn]; [|rewrite H4 in Hi; auto].
    rewrite H3 in Hi. injection Hi as <-. eapply Hf; eauto. }
  assert (GN : forall ph ts ts', pool_ok ph ts -> sp_new_thread ph ts = Some ts' -> pool_ok ph ts').
  { intros ph ts ts' H. unfold sp_new_thread, new_context, type_of. destruct (Nat.ltb_spec ph 3) as [Hp|]; [|discriminate]. cbn. intros [= <-]. apply (pool_app ph ts 1); auto. }
  intros H. destruct o as [ph|ph|ph n|]; cbn [top_step]; intros E.
  - eapply G; [apply touch_ok, H|exact E|]. intros ts ts' Ht. destruct ts as [|t ts]; [apply GN; auto|]. cbn. now intros [= <-].
  - eapply G; [apply touch_ok, H|exact E|apply GN].
  - eapply G; [exact H|exact E|]. intros ts ts' Ht. unfold parallelize_core. destruct (new_contexts ph (length ts) n) as [l|] eqn:EL; [|discriminate]. cbn. intros [= <-].
    apply new_contexts_spec in EL as [-> Hn]. now apply pool_app.
  - injection E as <-. intros ph ts Hp. rewrite nth_error_map in Hp. destruct (nth_error m ph); [|discriminate]. injection Hp as <-. split; [auto|intros HH; congruence].
Qed.
Lemma run_ok l : forall m m', pools_ok m -> top_run l m = Some m' -> pools_ok m'.
Proof.
  induction l as [|o l IH]; intros m m' H; cbn; [now intros [= <-]|]. destruct (top_step o m) as [m1|] eqn:E; [|discriminate]. apply IH. eapply step_ok; eauto.
Qed.
Lemma pools0_ok : pools_ok pools0.
Proof. intros [|[|i]] ts; cbn; try discriminate. intros [= <-]. split; [auto|intros HH; congruence]. Qed.
Lemma pools_in m t : pools_ok m -> In t (concat m) -> exists ph ts, nth_error m ph = Some ts /\ nth_error ts (snd t) = Some t /\ fst t = ph /\ ph < 3.
Proof.
  intros H Hi. apply in_concat in Hi as (ts & Ht & Hi). apply In_nth_error in Ht as (ph & Hp). exists ph, ts. destruct (H ph ts Hp) as [E1 E2]. split; auto.
  apply In_nth_error in Hi as (k & Hk). rewrite E1, nth_error_map in Hk. destruct (nth_error (seq 0 (length ts)) k) as [i|] eqn:Es; [|discriminate]. cbn in Hk. injection Hk as <-.
  assert (k < length (seq 0 (length ts))) by (apply nth_error_Some; congruence). rewrite seq_length in H0. rewrite (nth_error_nth' _ 0), seq_nth in Es by (rewrite ?seq_length; auto). injection Es as <-. cbn. split; [|split; auto].
  - rewrite E1 at 1. rewrite nth_error_map, (nth_error_nth' _ 0), seq_nth by (rewrite ?seq_length; auto). reflexivity.
  - apply E2. intros ->. cbn in *. lia.
Qed.
Lemma pools_nodup m : pools_ok m -> NoDup (concat m).
Proof.
  intros H. assert (G : forall m k, (forall ph ts, nth_error m ph = Some ts -> pool_ok (k + ph) ts) -> NoDup (concat m) /\ forall t, In t (concat m) -> k <= fst t).
  { clear. induction m as [|ts m IH]; intros k H; cbn; [split; [constructor|intros ? []]|]. destruct (IH (S k)) as [N1 N2]. { intros ph ts' Hp. replace (S k + ph) with (k + S ph) by lia. now apply H. }
    destruct (H 0 ts eq_refl) as [E _]. rewrite Nat.add_0_r in E.
    assert (Hts : forall t, In t ts -> fst t = k). { intros t Ht. rewrite E in Ht. apply in_map_iff in Ht as (i & <- & _). auto. }
    split.
    - assert (NT : NoDup ts). { rewrite E. apply Injective_map_NoDup; [intros x y [= ->]; auto|apply seq_NoDup]. }
      clear -N1 N2 Hts NT. induction ts as [|t ts IH]; cbn; auto. inversion NT; subst. constructor; [|apply IH; auto; intros; apply Hts; now right].
      rewrite in_app_iff. intros [Hi|Hi]; auto. apply N2 in Hi. rewrite (Hts t ltac:(now left)) in Hi. lia.
    - intros t Ht. apply in_app_or in Ht as [Ht|Ht]; [rewrite (Hts t Ht); auto|]. apply N2 in Ht. lia. }
  apply (G m 0 H).
Qed.
