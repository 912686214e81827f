(** Property theorem C86: builders and stages, and C26 for the fixed columns (halo2-base/src/gates/circuit/builder.rs, threads/multi_phase.rs).
    Reading guide: [brun l c] runs the calls [l] ([None] = a panic) and [from_stage s] is the fresh builder; pool [i] is
    [builder.pool(i)]; [backend_value pl v] is what the backend receives for an advice cell with value [v] of pool [pl] ([None] = unknown);
    [imposes pl] says that [assign_raw] enables selectors and records constraints. *)
From Coq Require Import Lia List Bool Arith.
From Coq Require Import ZArith.
From Verif Require Import Field Context Synth SynthProofs Threads Builder.
Local Open Scope nat_scope.
Import ListNotations.

Lemma brun_app l1 l2 c : brun (l1 ++ l2) c = match brun l1 c with Some c1 => brun l2 c1 | None => None end.
Proof. revert c. induction l1 as [|o l1 IH]; intros c; cbn; auto. destruct (bstep o c); auto. Qed.

(** ** flags, phases and contexts *)
Definition pool_good (w : bool) (i : nat) (pl : pool) : Prop := p_wgo pl = w /\ p_phase pl = i /\
  forall k t b, nth_error (p_threads pl) k = Some (t, b) -> t = (i, k) /\ b = w /\ i < 3.
Definition core_good (w : bool) (c : core) : Prop := c_wgo c = w /\ forall i pl, nth_error (c_pools c) i = Some pl -> pool_good w i pl.
Lemma good_app w i pl l : pool_good w i pl -> (forall k t, nth_error l k = Some t -> t = (i, length (p_threads pl) + k) /\ i < 3) ->
  pool_good w i (pool_threads (p_threads pl ++ map (fun t => (t, p_wgo pl)) l) pl).
Proof.
  intros (H1 & H2 & H3) H. split; [auto|]. split; [auto|]. intros k t b. cbn. destruct (Nat.lt_ge_cases k (length (p_threads pl))) as [Hk|Hk].
  - rewrite nth_error_app1 by auto. apply H3.
  - rewrite nth_error_app2, nth_error_map by auto. destruct (nth_error l _) as [t'|] eqn:E; [|discriminate]. cbn. intros [= <- <-]. apply H in E as [-> E].
    split; [f_equal; lia|]. auto.
Qed.
Lemma good_new_thread w i pl pl' : pool_good w i pl -> pool_new_thread pl = Some pl' -> pool_good w i pl'.
Proof.
  intros H. unfold pool_new_thread, new_context, type_of. destruct (Nat.ltb_spec (p_phase pl) 3) as [Hp|]; [|discriminate]. cbn. intros [= <-].
  apply (good_app w i pl [(p_phase pl, length (p_threads pl))]); auto. destruct H as (_ & E & _). rewrite E in *. intros [|[|k]] t; cbn; try discriminate.
  intros [= <-]. split; [f_equal; lia|auto].
Qed.
Lemma good_par w i n pl pl' : pool_good w i pl -> pool_par n pl = Some pl' -> pool_good w i pl'.
Proof.
  intros H. unfold pool_par. destruct (new_contexts _ _ n) as [l|] eqn:E; [|discriminate]. intros [= <-]. apply good_app; auto.
  apply new_contexts_spec in E as [-> E]. destruct H as (_ & Hi & _). rewrite Hi in *. intros k t Ht. assert (Hk : k < n).
  { assert (k < length (map (fun j => (i, j)) (seq (length (p_threads pl)) n))) as HL by (apply nth_error_Some; congruence). now rewrite map_length, seq_length in HL. }
  rewrite nth_error_map, (nth_error_nth' _ 0), seq_nth in Ht by (rewrite ?seq_length; auto). cbn in Ht. injection Ht as <-. split; auto. apply E. lia.
Qed.
Lemma good_touch w ph c : core_good w c -> core_good w (core_touch ph c).
Proof.
  intros [H1 H2]. destruct (touch_spec ph c) as (E & _). split; [congruence|]. intros i pl Hi. apply touch_nth in Hi as [Hi|[_ ->]]; auto.
  rewrite H1. split; [auto|]. split; [auto|]. intros [|k] t b; discriminate.
Qed.
Lemma good_on_pool w ph f c c' : core_good w c -> (forall pl pl', pool_good w ph pl -> f pl = Some pl' -> pool_good w ph pl') -> on_pool ph f c = Some c' -> core_good w c'.
Proof.
  intros [H1 H2] Hf E. unfold on_pool in E. destruct (upd (c_pools c) ph f) as [l|] eqn:EU; [|discriminate]. cbn in E. injection E as <-. split; auto. cbn. intros i pl Hi.
  destruct (upd_spec _ _ _ _ EU) as (x & y & Hx & Hy & Hz & Ho). destruct (Nat.eq_dec i ph) as [->|Hn]; [|rewrite Ho in Hi; auto].
  rewrite Hz in Hi. injection Hi as <-. eauto.
Qed.
Lemma good_step w o c c' : core_good w c -> bstep o c = Some c' -> core_good w c'.
Proof.
  intros H. destruct o as [ph|ph|ph n|bps|u| |]; cbn [bstep]; intros E.
  - eapply good_on_pool; [apply good_touch, H| |exact E]. intros pl pl' HP. unfold pool_main. destruct (p_threads pl) eqn:ET; [now apply good_new_thread|now intros [= <-]].
  - eapply good_on_pool; [apply good_touch, H| |exact E]. intros pl pl'. apply good_new_thread.
  - eapply good_on_pool; [exact H| |exact E]. intros pl pl'. apply good_par.
  - unfold set_break_points in E. destruct bps as [|b bps]; [now injection E as <-|].
    destruct (good_touch w (length (b :: bps) - 1) c H) as [H1 H2]. set (c1 := core_touch _ c) in *.
    destruct (zip_bp (c_pools c1) (b :: bps)) as [l|] eqn:EZ; [|discriminate]. cbn in E. injection E as <-. split; [exact H1|]. cbn. intros i pl Hi.
    destruct (zip_bp_spec _ _ _ EZ) as (_ & _ & _ & HZ). apply HZ in Hi as (pl0 & Hi & ->). apply H2 in Hi. exact Hi.
  - injection E as <-. destruct H as [H1 H2]. split; auto. cbn. intros i pl Hi. rewrite nth_error_map in Hi. destruct (nth_error (c_pools c) i) as [pl0|] eqn:E0; [|discriminate].
    injection Hi as <-. apply (H2 _ _ E0).
  - injection E as <-. destruct H as [H1 H2]. split; auto. cbn. intros i pl Hi. rewrite nth_error_map in Hi. destruct (nth_error (c_pools c) i) as [pl0|] eqn:E0; [|discriminate].
    injection Hi as <-. destruct (H2 _ _ E0) as (G1 & G2 & _). split; auto. split; auto. intros [|k] t b; discriminate.
  - now injection E as <-.
Qed.
Lemma good_run w l : forall c c', core_good w c -> brun l c = Some c' -> core_good w c'.
Proof.
  induction l as [|o l IH]; intros c c' H; cbn; [now intros [= <-]|]. destruct (bstep o c) as [c1|] eqn:E; [|discriminate]. apply IH. eapply good_step; eauto.
Qed.
Lemma good_new w : core_good w (core_new w).
Proof. split; auto. intros [|[|i]] pl; cbn; try discriminate. intros [= <-]. split; auto. split; auto. intros [|k] t b; discriminate. Qed.

(** After any calls on a builder made for stage [s], pool [i] is in phase [i], stores constraints exactly when [s] is not the proving
    stage, and its contexts carry the same flag and the tag (phase, position). *)
Theorem C86_pools_keep_the_stage : forall (s : stage) (l : list bop) (c : core) (i : nat) (pl : pool),
  brun l (from_stage s) = Some c -> nth_error (c_pools c) i = Some pl ->
  p_phase pl = i /\ imposes pl = (match s with Prover => false | _ => true end) /\
  forall k t b, nth_error (p_threads pl) k = Some (t, b) -> t = (i, k) /\ b = (match s with Prover => true | _ => false end) /\ i < 3.
Proof.
  intros s l c i pl H Hi. assert (G : core_good (stage_wgo s) c).
  { apply (good_run _ (BUnknown (is_keygen s) :: l) (core_new (stage_wgo s))); [apply good_new|exact H]. }
  destruct G as [_ G]. destruct (G _ _ Hi) as (G1 & G2 & G3). split; auto. unfold imposes. rewrite G1. split; [now destruct s|].
  intros k t b Hk. destruct (G3 _ _ _ Hk) as (A & B & C). split; auto.
Qed.

(** ** contexts are available in the three phases of the backend *)
Lemma touch_has ph c : exists pl, nth_error (c_pools (core_touch ph c)) ph = Some pl.
Proof.
  destruct (nth_error (c_pools (core_touch ph c)) ph) as [pl|] eqn:E; eauto. apply nth_error_None in E. destruct (touch_spec ph c) as (_ & _ & E2).
  rewrite E2, app_length, map_length, seq_length in E. lia.
Qed.
Lemma upd_run {A} (f : A -> option A) l : forall i x y, nth_error l i = Some x -> f x = Some y -> exists l', upd l i f = Some l' /\ nth_error l' i = Some y.
Proof.
  induction l as [|a l IH]; intros [|i] x y; cbn; try discriminate; [intros [= ->] ->; cbn; eauto|]. intros H1 H2. destruct (IH _ _ _ H1 H2) as (l' & -> & H). cbn. eauto.
Qed.
Lemma upd_none {A} (f : A -> option A) l : forall i x, nth_error l i = Some x -> f x = None -> upd l i f = None.
Proof. induction l as [|a l IH]; intros [|i] x; cbn; try discriminate; [now intros [= ->] ->|]. intros H1 H2. now rewrite (IH _ _ H1 H2). Qed.
Lemma on_pool_run ph f c x y : nth_error (c_pools c) ph = Some x -> f x = Some y -> exists c', on_pool ph f c = Some c' /\ nth_error (c_pools c') ph = Some y.
Proof. intros H1 H2. unfold on_pool. destruct (upd_run f (c_pools c) ph x y H1 H2) as (l & -> & H). cbn. eexists. split; [reflexivity|auto]. Qed.
(** [main] and [new_thread] return (do not panic) exactly for the phases 0, 1 and 2; [main] then has a context to hand out and only
    adds one to an empty pool, [new_thread] adds one at the end *)
Theorem C86_contexts_available : forall (s : stage) (l : list bop) (c : core) (ph : nat), brun l (from_stage s) = Some c ->
  let old := match nth_error (c_pools c) ph with Some pl => p_threads pl | None => [] end in
  let fresh := ((ph, length old), match s with Prover => true | _ => false end) in
  (ph < 3 -> exists c1 pl1 c2 pl2, bstep (BMain ph) c = Some c1 /\ nth_error (c_pools c1) ph = Some pl1 /\
     p_threads pl1 = (match old with [] => [fresh] | _ => old end) /\
     bstep (BNewThread ph) c = Some c2 /\ nth_error (c_pools c2) ph = Some pl2 /\ p_threads pl2 = old ++ [fresh]) /\
  (3 <= ph -> bstep (BMain ph) c = None /\ bstep (BNewThread ph) c = None).
Proof.
  intros s l c ph H old fresh. assert (G : core_good (stage_wgo s) c).
  { apply (good_run _ (BUnknown (is_keygen s) :: l) (core_new (stage_wgo s))); [apply good_new|exact H]. }
  assert (GT := good_touch _ ph _ G). destruct (touch_has ph c) as [pl Hpl]. destruct (proj2 GT _ _ Hpl) as (Hw & Hp & Hth).
  assert (HO : p_threads pl = old). { unfold old. destruct (touch_nth _ _ _ _ Hpl) as [E|[E ->]]; [now rewrite E|]. apply nth_error_None in E. now rewrite E. }
  assert (Hf : fresh = ((ph, length (p_threads pl)), stage_wgo s)) by (unfold fresh; rewrite HO; now destruct s).
  cbn [bstep]. split; intros L.
  - assert (EN : pool_new_thread pl = Some (pool_threads (p_threads pl ++ [fresh]) pl)).
    { unfold pool_new_thread, new_context, type_of. rewrite Hp. destruct (Nat.ltb_spec ph 3); [|lia]. cbn. now rewrite Hf, Hw. }
    destruct (on_pool_run ph pool_new_thread (core_touch ph c) _ _ Hpl EN) as (c2 & E2 & H2).
    assert (EM : pool_main pl = Some (pool_threads (match old with [] => [fresh] | _ => old end) pl)).
    { unfold pool_main. rewrite EN, HO. destruct old; [reflexivity|]. now rewrite <- HO; destruct pl. }
    destruct (on_pool_run ph pool_main (core_touch ph c) _ _ Hpl EM) as (c1 & E1 & H1).
    eexists c1, _, c2, _. split; [exact E1|]. split; [exact H1|]. split; [reflexivity|]. split; [exact E2|]. split; [exact H2|]. cbn. now rewrite HO.
  - assert (EN : pool_new_thread pl = None). { unfold pool_new_thread, new_context, type_of. rewrite Hp. destruct (Nat.ltb_spec ph 3); [lia|reflexivity]. }
    assert (E0 : p_threads pl = []). { destruct (p_threads pl) as [|[t b] ts]; auto. destruct (Hth 0 t b eq_refl) as (_ & _ & HH). lia. }
    unfold on_pool. rewrite (upd_none _ _ _ _ Hpl EN). rewrite (upd_none pool_main _ _ _ Hpl); [auto|]. unfold pool_main. now rewrite E0.
Qed.

(** ** the use_unknown flag *)
Lemma on_pool_unk ph f c c' : (forall pl pl', f pl = Some pl' -> p_unk pl' = p_unk pl) -> on_pool ph f c = Some c' ->
  length (c_pools c') = length (c_pools c) /\ forall i, option_map p_unk (nth_error (c_pools c') i) = option_map p_unk (nth_error (c_pools c) i).
Proof.
  intros Hf E. unfold on_pool in E. destruct (upd (c_pools c) ph f) as [l|] eqn:EU; [|discriminate]. cbn in E. injection E as <-. cbn. split; [eapply upd_length; eauto|]. intros i.
  destruct (upd_spec _ _ _ _ EU) as (x & y & Hx & Hy & Hz & Ho). destruct (Nat.eq_dec i ph) as [->|Hn]; [|now rewrite Ho]. rewrite Hx, Hz. cbn. f_equal. auto.
Qed.
Lemma new_thread_unk pl pl' : pool_new_thread pl = Some pl' -> p_unk pl' = p_unk pl.
Proof. unfold pool_new_thread. destruct (new_context _ _); [|discriminate]. now intros [= <-]. Qed.
(** [keeps c c']: the old pools keep the flag, the new ones do not have it *)
Definition keeps (c c' : core) : Prop := length (c_pools c) <= length (c_pools c') /\
  (forall i pl, nth_error (c_pools c) i = Some pl -> option_map p_unk (nth_error (c_pools c') i) = Some (p_unk pl)) /\
  (forall i pl, nth_error (c_pools c') i = Some pl -> length (c_pools c) <= i -> p_unk pl = false).
Lemma keeps_refl c : keeps c c.
Proof. split; [auto|]. split; [now intros i pl ->|]. intros i pl H Hi. apply nth_error_None in Hi. congruence. Qed.
Lemma keeps_touch ph c : keeps c (core_touch ph c).
Proof.
  destruct (touch_spec ph c) as (_ & _ & E). split; [rewrite E, app_length; lia|]. split.
  - intros i pl H. assert (i < length (c_pools c)) by (apply nth_error_Some; congruence). rewrite E, nth_error_app1, H by auto. auto.
  - intros i pl H Hi. apply touch_nth in H as [H|[_ ->]]; auto. apply nth_error_None in Hi. congruence.
Qed.
Lemma keeps_same c c1 c' : keeps c c1 -> length (c_pools c') = length (c_pools c1) ->
  (forall i, option_map p_unk (nth_error (c_pools c') i) = option_map p_unk (nth_error (c_pools c1) i)) -> keeps c c'.
Proof.
  intros (H1 & H2 & H3) HL HU. split; [lia|]. split; [intros i pl H; rewrite HU; auto|]. intros i pl H Hi. specialize (HU i). rewrite H in HU.
  destruct (nth_error (c_pools c1) i) as [pl1|] eqn:E; [|discriminate]. injection HU as ->. eauto.
Qed.
Lemma keeps_step o c c' : (forall u, o <> BUnknown u) -> bstep o c = Some c' -> keeps c c'.
Proof.
  intros Ho. destruct o as [ph|ph|ph n|bps|u| |]; cbn [bstep]; intros E.
  - apply on_pool_unk in E as [EL EU]; [eapply keeps_same; [apply keeps_touch|eauto|eauto]|]. intros pl pl'. unfold pool_main. destruct (p_threads pl); [apply new_thread_unk|now intros [= <-]].
  - apply on_pool_unk in E as [EL EU]; [eapply keeps_same; [apply keeps_touch|eauto|eauto]|]. apply new_thread_unk.
  - apply on_pool_unk in E as [EL EU]; [eapply keeps_same; [apply keeps_refl|eauto|eauto]|]. intros pl pl'. unfold pool_par. destruct (new_contexts _ _ _); [|discriminate]. now intros [= <-].
  - unfold set_break_points in E. destruct bps as [|b bps]; [injection E as <-; apply keeps_refl|].
    pose proof (keeps_touch (length (b :: bps) - 1) c) as HK. set (c1 := core_touch _ c) in *. clearbody c1.
    destruct (zip_bp (c_pools c1) (b :: bps)) as [l|] eqn:EZ; [|discriminate]. cbn in E. injection E as <-. destruct (zip_bp_spec _ _ _ EZ) as (_ & HL & _ & HZ).
    apply (keeps_same c c1); [auto|exact HL|]. cbn. intros i. destruct (nth_error l i) as [pl|] eqn:Ei.
    + apply HZ in Ei as (pl0 & -> & ->). reflexivity.
    + apply nth_error_None in Ei. rewrite HL in Ei. apply nth_error_None in Ei. now rewrite Ei.
  - now destruct (Ho u).
  - injection E as <-. apply (keeps_same c c); [apply keeps_refl|cbn; apply map_length|]. cbn. intros i. rewrite nth_error_map. now destruct (nth_error (c_pools c) i).
  - injection E as <-. apply keeps_refl.
Qed.

Lemma keeps_run l : (forall u, ~ In (BUnknown u) l) -> forall c c', brun l c = Some c' -> keeps c c'.
Proof.
  induction l as [|o l IH]; intros Hl c c'; cbn; [intros [= <-]; apply keeps_refl|]. destruct (bstep o c) as [c1|] eqn:E; [|discriminate]. intros E2.
  apply IH in E2; [|intros u Hu; apply (Hl u); now right]. apply keeps_step in E; [|intros u ->; apply (Hl u); now left].
  destruct E as (A1 & A2 & A3), E2 as (B1 & B2 & B3). split; [lia|]. split.
  - intros i pl H. specialize (A2 _ _ H). destruct (nth_error (c_pools c1) i) as [pl1|] eqn:E1; [|discriminate]. injection A2 as <-. auto.
  - intros i pl H Hi. destruct (nth_error (c_pools c1) i) as [pl1|] eqn:E1; [|apply (B3 _ _ H); now apply nth_error_None].
    specialize (B2 _ _ E1). rewrite H in B2. injection B2 as ->. eauto.
Qed.

(** After the last call of [unknown], with argument [u]: exactly the pools that existed at that call have the flag [u], the pools
    created later do not have it. *)
Theorem C86_unknown_reaches_existing_pools : forall (u : bool) (l : list bop) (c1 c : core) (i : nat) (pl : pool),
  brun (BUnknown u :: l) c1 = Some c -> (forall v, ~ In (BUnknown v) l) -> nth_error (c_pools c) i = Some pl ->
  p_unk pl = (u && Nat.ltb i (length (c_pools c1)))%bool.
Proof.
  intros u l c1 c i pl H Hl Hi. cbn in H. apply (keeps_run _ Hl) in H as (_ & A2 & A3). unfold core_unknown in A2, A3. cbn in A2, A3. rewrite map_length in A3.
  destruct (Nat.ltb_spec i (length (c_pools c1))) as [L|L]; [|rewrite andb_false_r; eauto]. rewrite andb_true_r.
  destruct (nth_error (c_pools c1) i) as [pl1|] eqn:E; [|apply nth_error_None in E; lia]. specialize (A2 i (pool_set_unk u pl1)). rewrite nth_error_map, E, Hi in A2.
  specialize (A2 eq_refl). now injection A2.
Qed.

(** What the backend receives, per stage: everything when proving or mocking; at key generation nothing of phase 0, everything of the
    later phases, which are created without the flag. *)
Theorem C86_values_per_stage : forall (V : Type) (s : stage) (l : list bop) (c : core) (i : nat) (pl : pool) (v : V),
  brun l (from_stage s) = Some c -> (forall u, ~ In (BUnknown u) l) -> nth_error (c_pools c) i = Some pl ->
  backend_value pl v = match s, i with Keygen, 0 => None | _, _ => Some v end.
Proof.
  intros V s l c i pl v H Hl Hi. assert (HU := C86_unknown_reaches_existing_pools (is_keygen s) l (core_new (stage_wgo s)) c i pl H Hl Hi).
  destruct (C86_pools_keep_the_stage s l c i pl H Hi) as (_ & HI & _). unfold backend_value, imposes in *. destruct (p_wgo pl).
  - destruct s; try discriminate. reflexivity.
  - rewrite HU. destruct s, i; try discriminate; reflexivity.
Qed.

(** The documentation of [unknown] ("during key generation witness values are replaced with unknown for safety") therefore fails for the
    phases after the first. *)
Theorem C86_keygen_unknown_refuted : exists (l : list bop) (c : core) (pl : pool), brun l (from_stage Keygen) = Some c /\ c_unk c = true /\
  nth_error (c_pools c) 1 = Some pl /\ length (p_threads pl) = 1 /\ forall V (v : V), backend_value pl v = Some v.
Proof. exists [BMain 0; BMain 1]. eexists. eexists. split; [reflexivity|]. split; [reflexivity|]. split; [reflexivity|]. split; [reflexivity|]. intros V v. reflexivity. Qed.

(** ** break points *)
Lemma all_bp_nth pls : forall bps i pl, all_bp pls = Some bps -> nth_error pls i = Some pl -> nth_error bps i = p_bp pl /\ p_bp pl <> None.
Proof.
  induction pls as [|a pls IH]; intros bps [|i] pl; cbn; try discriminate; destruct (p_bp a) as [b|] eqn:E; try discriminate;
    destruct (all_bp pls) as [l|] eqn:E2; try discriminate; intros [= <-]; [intros [= <-]; rewrite E; split; [auto|discriminate]|apply IH; auto].
Qed.
(** [break_points] returns what [set_break_points] was given *)
Theorem C86_break_points_round_trip : forall (bps : list (list nat)) (c c' : core), bps <> [] -> set_break_points bps c = Some c' -> break_points c' = Some bps.
Proof.
  intros bps c c' Hb. unfold set_break_points. destruct bps as [|b bps]; [congruence|]. set (c1 := core_touch _ c). destruct (zip_bp (c_pools c1) (b :: bps)) as [l|] eqn:E; [|discriminate].
  cbn. intros [= <-]. apply zip_bp_spec in E as (_ & _ & E & _). exact E.
Qed.
Lemma zip_bp_some pls : forall bps, length pls = length bps -> exists l, zip_bp pls bps = Some l.
Proof.
  induction pls as [|a pls IH]; intros [|b bps]; cbn; try discriminate; eauto. intros [= H]. destruct (IH bps H) as [l ->]. cbn. eauto.
Qed.
(** and it succeeds exactly when no phase in use is left without break points *)
Theorem C86_set_break_points_succeeds : forall (bps : list (list nat)) (c : core), bps <> [] ->
  ((exists c', set_break_points bps c = Some c') <-> length (c_pools c) <= length bps).
Proof.
  intros bps c Hb. unfold set_break_points. destruct bps as [|b bps]; [congruence|]. set (n := length (b :: bps)). assert (Hn : n = S (n - 1)) by (subst n; cbn; lia).
  destruct (touch_spec (n - 1) c) as (_ & _ & E). set (c1 := core_touch (n - 1) c) in *.
  assert (HL : length (c_pools c1) = length (c_pools c) + (n - length (c_pools c))) by (rewrite E, app_length, map_length, seq_length; lia). split.
  - intros [c' H]. destruct (zip_bp (c_pools c1) (b :: bps)) as [l|] eqn:EZ; [|discriminate]. apply zip_bp_spec in EZ as (H1 & _). fold n in H1. lia.
  - intros H. destruct (zip_bp_some (c_pools c1) (b :: bps)) as [l ->]; [fold n; lia|]. cbn. eauto.
Qed.
Lemma bp_step o c c' i b : (forall bps, o <> BBreakPoints bps) -> bstep o c = Some c' ->
  option_map p_bp (nth_error (c_pools c) i) = Some (Some b) -> option_map p_bp (nth_error (c_pools c') i) = Some (Some b).
Proof.
  assert (GT : forall ph, option_map p_bp (nth_error (c_pools c) i) = Some (Some b) -> option_map p_bp (nth_error (c_pools (core_touch ph c)) i) = Some (Some b)).
  { intros ph. destruct (touch_spec ph c) as (_ & _ & ->). destruct (nth_error (c_pools c) i) as [pl|] eqn:E; [|discriminate]. rewrite nth_error_app1, E by (apply nth_error_Some; congruence). auto. }
  assert (GO : forall ph f c1 c2, (forall pl pl', f pl = Some pl' -> p_bp pl' = p_bp pl) -> on_pool ph f c1 = Some c2 ->
     option_map p_bp (nth_error (c_pools c1) i) = Some (Some b) -> option_map p_bp (nth_error (c_pools c2) i) = Some (Some b)).
  { intros ph f c1 c2 Hf E. unfold on_pool in E. destruct (upd (c_pools c1) ph f) as [l|] eqn:EU; [|discriminate]. cbn in E. injection E as <-. cbn.
    destruct (upd_spec _ _ _ _ EU) as (x & y & Hx & Hy & Hz & Ho). destruct (Nat.eq_dec i ph) as [->|Hn]; [|now rewrite Ho]. rewrite Hx, Hz. cbn. now rewrite (Hf _ _ Hy). }
  assert (GN : forall pl pl', pool_new_thread pl = Some pl' -> p_bp pl' = p_bp pl) by (intros pl pl'; unfold pool_new_thread; destruct (new_context _ _); [now intros [= <-]|discriminate]).
  intros Ho. destruct o as [ph|ph|ph n|bps|u| |]; cbn [bstep]; intros E H.
  - eapply GO; [|exact E|auto]. intros pl pl'. unfold pool_main. destruct (p_threads pl); [apply GN|now intros [= <-]].
  - eapply GO; [exact GN|exact E|auto].
  - eapply GO; [|exact E|auto]. intros pl pl'. unfold pool_par. destruct (new_contexts _ _ _); [now intros [= <-]|discriminate].
  - now destruct (Ho bps).
  - injection E as <-. cbn. rewrite nth_error_map. now destruct (nth_error (c_pools c) i).
  - injection E as <-. cbn. rewrite nth_error_map. now destruct (nth_error (c_pools c) i).
  - now injection E as <-.
Qed.
(** A prover builder keeps the pinned break points of every phase through any calls, also [clear]: [assign_witnesses] of phase [i] reads
    the [i]-th list. *)
Theorem C86_prover_keeps_break_points : forall (bps : list (list nat)) (l : list bop) (c0 c : core) (i : nat) (b : list nat),
  prover_builder bps = Some c0 -> (forall x, ~ In (BBreakPoints x) l) -> brun l c0 = Some c -> nth_error bps i = Some b ->
  exists pl, nth_error (c_pools c) i = Some pl /\ p_bp pl = Some b /\ imposes pl = false.
Proof.
  intros bps l c0 c i b H0 Hl H Hb. assert (HG : core_good true c).
  { apply (good_run _ (BBreakPoints bps :: l) (core_new true)); [apply good_new|]. cbn. unfold prover_builder in H0. now rewrite H0. }
  assert (HB : option_map p_bp (nth_error (c_pools c0) i) = Some (Some b)).
  { unfold prover_builder, set_break_points in H0. destruct bps as [|b0 bps]; [destruct i; discriminate|]. set (c1 := core_touch _ _) in H0.
    destruct (zip_bp (c_pools c1) (b0 :: bps)) as [lz|] eqn:E; [|discriminate]. cbn in H0. injection H0 as <-. cbn. apply zip_bp_spec in E as (HL0 & HL & EA & _).
    destruct (nth_error lz i) as [pl|] eqn:Ei.
    - destruct (all_bp_nth _ _ _ _ EA Ei) as [G _]. cbn. f_equal. congruence.
    - apply nth_error_None in Ei. assert (i < length (b0 :: bps)) by (apply nth_error_Some; congruence). lia. }
  clear H0. revert c0 HB H. induction l as [|o l IH]; intros c0 HB; cbn.
  - intros [= <-]. destruct (nth_error (c_pools c0) i) as [pl|] eqn:E; [|discriminate]. injection HB as HB. exists pl. split; auto. split; auto. unfold imposes. destruct HG as [_ HG]. now destruct (HG _ _ E) as [-> _].
  - destruct (bstep o c0) as [c1|] eqn:E; [|discriminate]. intros H. eapply IH; [intros x Hx; apply (Hl x); now right| |exact H]. eapply bp_step; [|exact E|exact HB]. intros x ->. apply (Hl x). now left.
Qed.

(** ** Example: prove with two phases *)
Example C86_example : exists c pl, prover_builder [[1; 2]; [3]] = Some c /\ break_points c = Some [[1; 2]; [3]] /\
  brun [BMain 0; BMain 1; BNewThread 1; BPar 1 2; BClear; BMain 1; BPar 0 3] c = Some (mkCore [mkPool [((0, 0), true); ((0, 1), true); ((0, 2), true)] true false 0 (Some [1; 2]); pl] true false) /\
  p_threads pl = [((1, 0), true)] /\ brun [BMain 3] c = None /\ brun [BMain 1; BBreakPoints [[1]]] c = None.
Proof. eexists. eexists. repeat split; reflexivity. Qed.

(** ** C26 for the fixed columns (C27_panics_iff says when a number of columns suffices).
    multi_phase.rs:141 [calculate_params] counts on all [2 ^ k] rows and forgets [minimum_rows], the rows unusable for assignments:
    when the constants fill more than the usable rows, the calculated number of fixed columns makes [assign_raw] panic, one more is enough. *)
Definition calc_num_fixed (k total : nat) : nat := (total + 2 ^ k - 1) / 2 ^ k.
Theorem C26_fixed_columns_refuted : exists (k rows : nat) (consts : list (F 101 * cell)) (m : list (cell * pcell)), rows + 1 = 2 ^ k /\
  let n := calc_num_fixed k (num_distinct_constants consts) in
  copy_assign_raw n rows [] consts m = None /\ exists r, copy_assign_raw (n + 1) rows [] consts m = Some r.
Proof.
  exists 3, 7, (map (fun i => (of_Z 101 i, mkCell 0 0 0)) [0; 1; 2; 3; 4; 5; 6; 7]%Z), [(mkCell 0 0 0, PExt 0)].
  split; [reflexivity|]. cbv zeta. split; [vm_compute; reflexivity|].
  destruct (copy_assign_raw _ _ _ _ _) as [r|] eqn:E; [eauto|vm_compute in E; discriminate].
Qed.
