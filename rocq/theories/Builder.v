(** Model of the stage flags of circuit builders: [BaseCircuitBuilder] (halo2-base/src/gates/circuit/builder.rs:60-247),
    [MultiPhaseCoreManager] and [SinglePhaseCoreManager] (halo2-base/src/gates/flex_gate/threads/{multi_phase,single_phase}.rs).
    Threads.v models the tags of the contexts; this file adds the flags each pool and context is created with and the break points.
    Simplifications: the shared copy manager, the lookup managers and the configuration parameters are left out; the cells of a
    context are left out, a context being its tag and its [witness_gen_only] flag. *)
From Coq Require Import Lia List Bool Arith.
From Verif Require Import Context Threads.
Import ListNotations.

(** circuit/mod.rs:201-220 [CircuitBuilderStage] *)
Inductive stage := Keygen | Prover | Mock.
(** circuit/mod.rs:212-214 [witness_gen_only] *)
Definition stage_wgo (s : stage) : bool := match s with Prover => true | _ => false end.
Definition is_keygen (s : stage) : bool := match s with Keygen => true | _ => false end.

(** single_phase.rs:23-41 [SinglePhaseCoreManager]; a context is its tag and its flag *)
Record pool := mkPool { p_threads : list (tag * bool); p_wgo : bool; p_unk : bool; p_phase : nat; p_bp : option (list nat) }.
(** multi_phase.rs:17-29 [MultiPhaseCoreManager] *)
Record core := mkCore { c_pools : list pool; c_wgo : bool; c_unk : bool }.

(** single_phase.rs:49-58 [new]: phase 0, [use_unknown] false *)
Definition pool_new (wgo : bool) : pool := mkPool [] wgo false 0 None.
(** single_phase.rs:61-63 [in_phase] *)
Definition pool_in_phase (ph : nat) (pl : pool) : pool := mkPool (p_threads pl) (p_wgo pl) (p_unk pl) ph (p_bp pl).
Definition pool_threads (ts : list (tag * bool)) (pl : pool) : pool := mkPool ts (p_wgo pl) (p_unk pl) (p_phase pl) (p_bp pl).
Definition pool_set_bp (b : option (list nat)) (pl : pool) : pool := mkPool (p_threads pl) (p_wgo pl) (p_unk pl) (p_phase pl) b.
Definition pool_set_unk (u : bool) (pl : pool) : pool := mkPool (p_threads pl) (p_wgo pl) u (p_phase pl) (p_bp pl).
(** single_phase.rs:137-141 [new_thread] with 125-133 [new_context] *)
Definition pool_new_thread (pl : pool) : option pool :=
  match new_context (p_phase pl) (length (p_threads pl)) with
  | Some t => Some (pool_threads (p_threads pl ++ [(t, p_wgo pl)]) pl) | None => None end.
(** single_phase.rs:99-105 [main] *)
Definition pool_main (pl : pool) : option pool := match p_threads pl with [] => pool_new_thread pl | _ => Some pl end.
(** parallelize.rs:9-29 [parallelize_core] on [n] inputs *)
Definition pool_par (n : nat) (pl : pool) : option pool :=
  match new_contexts (p_phase pl) (length (p_threads pl)) n with
  | Some l => Some (pool_threads (p_threads pl ++ map (fun t => (t, p_wgo pl)) l) pl) | None => None end.
(** single_phase.rs:91-94 [clear]: only the threads (and the copy manager) *)
Definition pool_clear (pl : pool) : pool := pool_threads [] pl.

(** multi_phase.rs:35-40 [new] *)
Definition core_new (wgo : bool) : core := mkCore [pool_new wgo] wgo false.
(** multi_phase.rs:99-106 [touch]: [n] turns of the loop; the new pools get the phase and [witness_gen_only] but not [use_unknown] *)
Fixpoint touch_loop (n : nat) (c : core) : core :=
  match n with
  | O => c
  | S n => touch_loop n (mkCore (c_pools c ++ [pool_in_phase (length (c_pools c)) (pool_new (c_wgo c))]) (c_wgo c) (c_unk c))
  end.
Definition core_touch (ph : nat) (c : core) : core := touch_loop (S ph - length (c_pools c)) c.
(** multi_phase.rs:63-69 [unknown] *)
Definition core_unknown (u : bool) (c : core) : core := mkCore (map (pool_set_unk u) (c_pools c)) (c_wgo c) u.
(** multi_phase.rs:72-77 [clear] *)
Definition core_clear (c : core) : core := mkCore (map pool_clear (c_pools c)) (c_wgo c) (c_unk c).
Definition on_pool (ph : nat) (f : pool -> option pool) (c : core) : option core :=
  option_map (fun l => mkCore l (c_wgo c) (c_unk c)) (upd (c_pools c) ph f).

(** builder.rs:186-194 [set_break_points]; [zip_eq] panics on different lengths *)
Fixpoint zip_bp (pls : list pool) (bps : list (list nat)) : option (list pool) :=
  match pls, bps with
  | [], [] => Some []
  | pl :: pls, b :: bps => option_map (cons (pool_set_bp (Some b) pl)) (zip_bp pls bps)
  | _, _ => None
  end.
Definition set_break_points (bps : list (list nat)) (c : core) : option core :=
  match bps with
  | [] => Some c
  | _ => let c := core_touch (length bps - 1) c in option_map (fun l => mkCore l (c_wgo c) (c_unk c)) (zip_bp (c_pools c) bps)
  end.
(** builder.rs:177-183 [break_points]; panics when a pool has none *)
Fixpoint all_bp (pls : list pool) : option (list (list nat)) :=
  match pls with
  | [] => Some []
  | pl :: pls => match p_bp pl, all_bp pls with Some b, Some l => Some (b :: l) | _, _ => None end
  end.
Definition break_points (c : core) : option (list (list nat)) := all_bp (c_pools c).

(** builder.rs:89-91 [from_stage] *)
Definition from_stage (s : stage) : core := core_unknown (is_keygen s) (core_new (stage_wgo s)).
(** builder.rs:94-99 [prover] *)
Definition prover_builder (bps : list (list nat)) : option core := set_break_points bps (core_new true).

(** the calls of a user; [deep_clone] (builder.rs:114-122) and [clone] keep all of the above *)
Inductive bop := BMain (ph : nat) | BNewThread (ph : nat) | BPar (ph n : nat) | BBreakPoints (bps : list (list nat)) | BUnknown (u : bool) | BClear | BClone.
Definition bstep (o : bop) (c : core) : option core :=
  match o with
  | BMain ph => on_pool ph pool_main (core_touch ph c)
  | BNewThread ph => on_pool ph pool_new_thread (core_touch ph c)
  | BPar ph n => on_pool ph (pool_par n) c
  | BBreakPoints bps => set_break_points bps c
  | BUnknown u => Some (core_unknown u c)
  | BClear => Some (core_clear c)
  | BClone => Some c
  end.
Fixpoint brun (l : list bop) (c : core) : option core :=
  match l with [] => Some c | o :: l => match bstep o c with Some c' => brun l c' | None => None end end.

(** what [assign_raw] hands to the backend as the value of an advice cell [v] (single_phase.rs:151-175, line 214 for the flag);
    [None] = [Value::unknown()]. The prover branch ([assign_witnesses]) hands over the value. *)
Definition backend_value {V : Type} (pl : pool) (v : V) : option V := if p_wgo pl then Some v else if p_unk pl then None else Some v.
(** whether that branch runs [assign_with_constraints], i.e. selectors are enabled and copy constraints are recorded *)
Definition imposes (pl : pool) : bool := negb (p_wgo pl).

(** ** Proofs *)
Lemma touch_loop_spec n : forall c, c_wgo (touch_loop n c) = c_wgo c /\ c_unk (touch_loop n c) = c_unk c /\
  c_pools (touch_loop n c) = c_pools c ++ map (fun i => pool_in_phase i (pool_new (c_wgo c))) (seq (length (c_pools c)) n).
Proof.
  induction n as [|n IH]; intros c; cbn [touch_loop seq map]; [now rewrite app_nil_r|].
  destruct (IH (mkCore (c_pools c ++ [pool_in_phase (length (c_pools c)) (pool_new (c_wgo c))]) (c_wgo c) (c_unk c))) as (H1 & H2 & H3).
  rewrite H1, H2, H3. cbn [c_wgo c_unk c_pools]. rewrite app_length, <- app_assoc. cbn. rewrite Nat.add_1_r. auto.
Qed.
Lemma touch_spec ph c : c_wgo (core_touch ph c) = c_wgo c /\ c_unk (core_touch ph c) = c_unk c /\
  c_pools (core_touch ph c) = c_pools c ++ map (fun i => pool_in_phase i (pool_new (c_wgo c))) (seq (length (c_pools c)) (S ph - length (c_pools c))).
Proof. apply touch_loop_spec. Qed.
Lemma touch_nth ph c i pl : nth_error (c_pools (core_touch ph c)) i = Some pl ->
  nth_error (c_pools c) i = Some pl \/ (length (c_pools c) <= i /\ pl = pool_in_phase i (pool_new (c_wgo c))).
Proof.
  destruct (touch_spec ph c) as (_ & _ & ->). destruct (Nat.lt_ge_cases i (length (c_pools c))) as [Hi|Hi].
  - rewrite nth_error_app1 by auto. auto.
  - rewrite nth_error_app2 by auto. rewrite nth_error_map. destruct (nth_error (seq _ _) _) as [j|] eqn:E; [|discriminate]. cbn. intros [= <-]. right. split; auto.
    assert (HL : i - length (c_pools c) < length (seq (length (c_pools c)) (S ph - length (c_pools c)))) by (apply nth_error_Some; congruence). rewrite seq_length in HL.
    rewrite (nth_error_nth' _ 0), seq_nth in E by (rewrite ?seq_length; auto). injection E as <-. f_equal. lia.
Qed.
Lemma upd_length {A} (f : A -> option A) l : forall i l', upd l i f = Some l' -> length l' = length l.
Proof.
  induction l as [|a l IH]; intros [|i] l'; cbn; try discriminate.
  - destruct (f a); [|discriminate]. now intros [= <-].
  - destruct (upd l i f) as [l2|] eqn:E; [|discriminate]. intros [= <-]. cbn. f_equal. eauto.
Qed.
Lemma zip_bp_spec pls : forall bps l, zip_bp pls bps = Some l -> length pls = length bps /\ length l = length pls /\ all_bp l = Some bps /\
  forall i pl, nth_error l i = Some pl -> exists pl0, nth_error pls i = Some pl0 /\ pl = pool_set_bp (nth_error bps i) pl0.
Proof.
  induction pls as [|a pls IH]; intros [|b bps] l; cbn; try discriminate.
  - intros [= <-]. repeat split; auto. intros [|i] pl; discriminate.
  - destruct (zip_bp pls bps) as [l2|] eqn:E; [|discriminate]. cbn. intros [= <-]. destruct (IH _ _ E) as (H1 & H2 & H3 & H4). cbn. rewrite H1, H2, H3. repeat split; auto.
    intros [|i] pl; cbn; [intros [= <-]; eauto|apply H4].
Qed.
(** one step: where a pool comes from *)
Definition from_old (c : core) (i : nat) (f : pool -> Prop) : Prop := exists pl0, nth_error (c_pools c) i = Some pl0 /\ f pl0.
Lemma on_pool_nth ph f c c' i pl : on_pool ph f c = Some c' -> nth_error (c_pools c') i = Some pl ->
  c_wgo c' = c_wgo c /\ length (c_pools c') = length (c_pools c) /\
  (nth_error (c_pools c) i = Some pl \/ exists pl0, nth_error (c_pools c) i = Some pl0 /\ f pl0 = Some pl).
Proof.
  unfold on_pool. destruct (upd (c_pools c) ph f) as [l|] eqn:E; [|discriminate]. cbn. intros [= <-]. cbn. intros Hi. split; auto. split; [eapply upd_length; eauto|].
  destruct (upd_spec _ _ _ _ E) as (x & y & H1 & H2 & H3 & H4). destruct (Nat.eq_dec i ph) as [->|Hn].
  - right. exists x. rewrite H3 in Hi. injection Hi as <-. auto.
  - left. rewrite <- H4; auto.
Qed.
