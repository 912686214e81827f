(** The optimised Poseidon permutation equals the textbook one (C39). *)
From Coq Require Import ZArith Znumtheory Lia List Bool Arith Ring.
From Verif Require Import Field GateProofs Det PoseidonMds PoseidonSpec.
Import ListNotations.
Local Open Scope F_scope.

Section Opt.
Context {p : positive}.
Add Ring Fring : (F_ring p) (morphism (F_morph p), constants [Fcst]).
Notation vec := (list (F p)).
Notation mat := (list (list (F p))).

(** ** tabulation *)
Lemma tab_len {A} n (f : nat -> A) : length (tab n f) = n.
Proof. unfold tab. now rewrite map_length, seq_length. Qed.
Lemma nth_tab {A} n (f : nat -> A) i d : (i < n)%nat -> nth i (tab n f) d = f i.
Proof.
  intros H. unfold tab. rewrite (nth_indep _ d (f O)) by now rewrite map_length, seq_length.
  rewrite map_nth. rewrite seq_nth by auto. reflexivity.
Qed.
Lemma vget_tab n f i : (i < n)%nat -> vget (p:=p) (tab n f) i = f i.
Proof. apply nth_tab. Qed.
Lemma ent_tab2 n f i j : (i < n)%nat -> (j < n)%nat -> ent (p:=p) (tab2 n f) i j = f i j.
Proof. intros. unfold ent, tab2. rewrite !nth_tab by auto. reflexivity. Qed.
Lemma tab_ext {A} n (f g : nat -> A) : (forall i, (i < n)%nat -> f i = g i) -> tab n f = tab n g.
Proof. intros H. unfold tab. apply map_ext_in. intros a Ha. apply in_seq in Ha. apply H. lia. Qed.
Lemma tab_vget (v : vec) : tab (length v) (vget v) = v.
Proof.
  apply (nth_ext _ _ (F0 (p:=p)) F0); [apply tab_len|].
  rewrite tab_len. intros n Hn. rewrite nth_tab by auto. reflexivity.
Qed.
Lemma vec_ext n (v w : vec) : length v = n -> length w = n ->
  (forall i, (i < n)%nat -> vget v i = vget w i) -> v = w.
Proof. intros Hv Hw H. apply (nth_ext _ _ F0 F0); [congruence|]. intros i Hi. apply H. lia. Qed.

(** ** Gaussian elimination *)
Lemma find_pivot_some (rows : mat) k : find_pivot rows = Some k ->
  (k < length rows)%nat /\ vget (nth k rows []) 0 <> 0.
Proof.
  revert k. induction rows as [|r rs IH]; intros k H; cbn in H; [discriminate|].
  destruct (Fis0 (vget r 0)) eqn:E.
  - destruct (find_pivot rs) as [k'|]; [|discriminate]. injection H as <-.
    destruct (IH k' eq_refl). cbn. split; [lia|auto].
  - injection H as <-. cbn. split; [lia|]. now apply Fis0_false.
Qed.
Lemma swap_rows_nth (rows : mat) k i : (k < length rows)%nat ->
  nth i (swap_rows k rows) [] =
  if (i =? 0)%nat then nth k rows [] else if (i =? k)%nat then nth 0 rows [] else nth i rows [].
Proof.
  intros Hk. destruct k as [|k].
  { cbn [swap_rows]. destruct (Nat.eqb_spec i 0); [subst|]; reflexivity. }
  destruct rows as [|r0 rs]; [cbn in Hk; lia|]. cbn in Hk. cbn [swap_rows].
  destruct i as [|i]; [reflexivity|]. cbn [Nat.eqb nth].
  assert (Hf : length (firstn k rs) = k) by (rewrite firstn_length; lia).
  destruct (Nat.eqb_spec i k) as [->|Hik].
  - rewrite app_nth2 by lia. rewrite Hf, Nat.sub_diag. reflexivity.
  - destruct (Nat.lt_ge_cases i k).
    + rewrite app_nth1 by lia. rewrite <- (firstn_skipn k rs) at 2. rewrite app_nth1 by lia. reflexivity.
    + rewrite app_nth2 by lia. rewrite Hf.
      rewrite <- (firstn_skipn (S k) rs) at 2.
      assert (length (firstn (S k) rs) = S k) by (rewrite firstn_length; lia).
      rewrite (app_nth2 (firstn (S k) rs)) by lia. rewrite H0.
      replace (i - k)%nat with (S (i - S k)) by lia. reflexivity.
Qed.
Lemma swap_rows_len (rows : mat) k : (k < length rows)%nat -> length (swap_rows k rows) = length rows.
Proof.
  intros Hk. destruct k as [|k]; [reflexivity|]. destruct rows as [|r0 rs]; [reflexivity|].
  cbn in Hk. cbn [swap_rows length]. rewrite app_length. cbn [length]. rewrite firstn_length, skipn_length. lia.
Qed.

Hypothesis Hp : prime (Z.pos p).

Lemma det_loop_correct n : forall (rows : mat) res d, length rows = n ->
  det_loop n rows res = Some d -> d = res * det n (ent rows).
Proof.
  induction n as [|n IH]; intros rows res d Hl H.
  - cbn in H. injection H as <-. cbn. ring.
  - cbn [det_loop] in H. destruct (find_pivot rows) as [k|] eqn:Ek; [|discriminate].
    apply find_pivot_some in Ek as [Hk Hkz].
    pose proof (swap_rows_len rows k Hk) as Hsl.
    pose proof (swap_rows_nth rows k) as Hsn.
    destruct (swap_rows k rows) as [|r0 rs] eqn:Es; [discriminate|].
    cbn [length] in Hsl.
    apply IH in H. 2:{ rewrite map_length. lia. }
    rewrite H.
    assert (H0 : r0 = nth k rows []) by apply (Hsn O Hk).
    set (N := ent (r0 :: rs)).
    rewrite (det_ext n _ (pivot_sub N)).
    2:{ intros i c Hi Hc. unfold ent at 1, pivot_sub, N.
        set (f := fun r => tab n (fun c0 => vget r (S c0) - vget r0 (S c0) * (vget r 0 * Finv (vget r0 0)))).
        rewrite (nth_indep _ [] (f [])) by (rewrite map_length; lia).
        rewrite map_nth. unfold f. rewrite nth_tab by auto. reflexivity. }
    assert (HN0 : N O O = vget r0 0) by reflexivity.
    assert (E : det (S n) N = (if (k =? 0)%nat then 1 else - (1)) * det (S n) (ent rows)).
    { destruct (Nat.eqb_spec k 0) as [->|Hk0].
      - cbn [swap_rows] in Es. rewrite Es. unfold N. ring.
      - rewrite (det_ext (S n) N (rswap (ent rows) 0 k)).
        + rewrite det_swap by lia. ring.
        + intros i j Hi Hj. unfold N, ent, rswap. rewrite Hsn by auto.
          destruct (Nat.eqb_spec i 0) as [->|]; [reflexivity|].
          destruct (Nat.eqb_spec i k); reflexivity. }
    assert (E2 : det (S n) N = N O O * det n (pivot_sub N)).
    { apply det_pivot; auto. rewrite HN0, H0. auto. }
    rewrite HN0, E in E2.
    destruct (k =? 0)%nat.
    + replace (res * det (S n) (ent rows)) with (res * (1 * det (S n) (ent rows))) by ring. rewrite E2. ring.
    + replace (res * det (S n) (ent rows)) with ((- res) * (- (1) * det (S n) (ent rows))) by ring. rewrite E2. ring.
Qed.
Lemma determinant_correct n (m : mat) d : length m = n -> determinant n m = Some d -> d = det n (ent m).
Proof. intros Hl H. apply det_loop_correct in H; auto. rewrite H. ring. Qed.

Lemma all_some_nth {A} (l : list (option A)) r : all_some l = Some r ->
  length r = length l /\ forall i d, (i < length l)%nat -> nth i l None = Some (nth i r d).
Proof.
  revert r. induction l as [|[a|] l IH]; intros r H; cbn in H; try discriminate.
  - injection H as <-. split; [reflexivity|]. cbn. lia.
  - destruct (all_some l) as [r'|]; [|discriminate]. injection H as <-.
    destruct (IH r' eq_refl) as [Hl Hn]. cbn. split; [lia|].
    intros [|i] d Hi; [reflexivity|]. apply Hn. lia.
Qed.

(** ** Factorisation *)
(** the dense matrix of a sparse one, in the orientation used by [apply_sparse_mds] *)
Definition sp_ent (sp : sparse (p:=p)) (i j : nat) : F p :=
  match i, j with
  | O, _ => vget (sp_row sp) j
  | S i', O => vget (sp_col_hat sp) i'
  | S _, S _ => if (i =? j)%nat then 1 else 0
  end.
Definition fmul_m (T : nat) (A B : nat -> nat -> F p) (i j : nat) : F p := bsum T (fun k => A i k * B k j).

Definition blockdiag (T : nat) (P : nat -> nat -> F p) : Prop :=
  P O O = 1 /\ (forall j, (j < T)%nat -> j <> O -> P O j = 0 /\ P j O = 0).

Lemma factorise_spec T RATE (m : mat) mp sp : factorise T RATE m = Some (mp, sp) ->
  T = S RATE /\ length (sp_row sp) = T /\ length (sp_col_hat sp) = RATE /\
  blockdiag T (fun i j => ent mp j i) /\
  forall i j, (i < T)%nat -> (j < T)%nat ->
    fmul_m T (sp_ent sp) (fun a b => ent mp b a) i j = ent m j i.
Proof.
  unfold factorise. intros H.
  destruct (Nat.eqb_spec (RATE + 1) T) as [ET|]; [|discriminate]. cbn [negb] in H.
  assert (HT : T = S RATE) by lia. clear ET. subst T.
  set (w := tab RATE (fun i => ent m (S i) 0)) in *.
  set (mh := tab2 RATE (fun i j => ent m (S i) (S j))) in *.
  destruct (determinant RATE mh) as [d|] eqn:Ed; [|discriminate].
  apply determinant_correct in Ed; [|apply tab_len].
  destruct (Fis0 d) eqn:Ed0; [discriminate|]. apply Fis0_false in Ed0.
  match type of H with match all_some ?l with _ => _ end = _ => destruct (all_some l) as [wh|] eqn:Ew; [|discriminate] end.
  apply all_some_nth in Ew as [Hwl Hwn]. rewrite tab_len in Hwl, Hwn.
  injection H as <- <-. cbn [sp_row sp_col_hat].
  split; [reflexivity|]. split; [apply tab_len|]. split; [apply tab_len|].
  assert (Cr : forall i, (i < RATE)%nat -> bsum RATE (fun j => ent m (S i) (S j) * vget wh j) = ent m (S i) 0).
  { intros i Hi. pose proof (cramer Hp RATE (ent mh) (fun i => ent m (S i) 0)) as C.
    rewrite <- Ed in C. specialize (C Ed0 i Hi). unfold mv in C. rewrite <- C.
    apply bsum_ext. intros j Hj. unfold mh at 1. rewrite ent_tab2 by auto. f_equal.
    specialize (Hwn j (F0 (p:=p)) Hj). rewrite nth_tab in Hwn by auto.
    destruct (determinant RATE _) as [dj|] eqn:Edj; [|discriminate].
    apply determinant_correct in Edj; [|apply tab_len]. cbn in Hwn. injection Hwn as Hwn.
    unfold vget. rewrite <- Hwn. rewrite Edj. f_equal. apply det_ext.
    intros r c Hr Hc. rewrite ent_tab2 by auto. unfold cupd. destruct (c =? j)%nat; [|reflexivity].
    unfold w. rewrite vget_tab by auto. reflexivity. }
  set (mp := tab2 (S RATE) _). set (mpp := tab2 (S RATE) _).
  split.
  - split.
    + unfold mp. rewrite ent_tab2 by lia. reflexivity.
    + intros j Hj Hj0. unfold mp. rewrite !ent_tab2 by lia. destruct j; [lia|]. split; reflexivity.
  - assert (Hsp : forall i j, (i < S RATE)%nat -> (j < S RATE)%nat ->
      sp_ent (mkSparse (tab (S RATE) (fun i => ent mpp i 0)) (tab RATE (fun j => ent mpp 0 (S j)))) i j = ent mpp j i).
    { intros i j Hi Hj. unfold sp_ent. cbn [sp_row sp_col_hat].
      destruct i as [|i]; [rewrite vget_tab by lia; reflexivity|].
      destruct j as [|j]; [rewrite vget_tab by lia; reflexivity|].
      unfold mpp. rewrite ent_tab2 by lia. rewrite Nat.eqb_sym. reflexivity. }
    intros i j Hi Hj. unfold fmul_m.
    rewrite (bsum_ext (S RATE) _ (fun k => ent mp j k * ent mpp k i))
      by (intros k Hk; rewrite Hsp by auto; ring).
    rewrite bsum_S_l. unfold mp at 1, mpp at 1. rewrite !ent_tab2 by lia.
    destruct j as [|j].
    + cbn [Nat.eqb]. rewrite bsum_0. ring. intros k Hk. unfold mp. rewrite ent_tab2 by lia. cbn [Nat.eqb]. ring.
    + cbn [Nat.eqb]. 
      rewrite (bsum_ext RATE _ (fun k => ent m (S j) (S k) * ent mpp (S k) i)).
      2:{ intros k Hk. unfold mp. rewrite ent_tab2 by lia. unfold mh. rewrite ent_tab2 by lia. reflexivity. }
      destruct i as [|i].
      * rewrite (bsum_ext RATE _ (fun k => ent m (S j) (S k) * vget wh k)).
        2:{ intros k Hk. unfold mpp. rewrite ent_tab2 by lia. reflexivity. }
        rewrite Cr by lia. ring.
      * rewrite (bsum_single RATE i); [|lia|].
        2:{ intros k Hk Hki. unfold mpp. rewrite ent_tab2 by lia.
            destruct (Nat.eqb_spec (S k) (S i)); [lia|ring]. }
        unfold mpp. rewrite ent_tab2 by lia. rewrite Nat.eqb_refl. ring.
Qed.

(** ** Vectors *)
Lemma mul_vector_len T (m : mat) v : length (mul_vector T m v) = T.
Proof. apply tab_len. Qed.
Lemma vget_mul_vector T (m : mat) v i : (i < T)%nat -> vget (mul_vector T m v) i = mv T (ent m) (vget v) i.
Proof. intros. unfold mul_vector. rewrite vget_tab by auto. reflexivity. Qed.
Lemma mv_ext T (A B : nat -> nat -> F p) u v i :
  (forall j, (j < T)%nat -> A i j = B i j) -> (forall j, (j < T)%nat -> u j = v j) -> mv T A u i = mv T B v i.
Proof. intros H1 H2. unfold mv. apply bsum_ext. intros. now rewrite H1, H2. Qed.
Lemma mv_add T (A : nat -> nat -> F p) u v i : mv T A (fun j => u j + v j) i = mv T A u i + mv T A v i.
Proof. unfold mv. rewrite <- bsum_add. apply bsum_ext. intros. ring. Qed.
Lemma mv_mv T (A B : nat -> nat -> F p) v i : mv T A (mv T B v) i = mv T (fmul_m T A B) v i.
Proof.
  unfold mv, fmul_m.
  rewrite (bsum_ext T _ (fun j => bsum T (fun k => A i j * B j k * v k))).
  2:{ intros j Hj. rewrite <- bsum_scal. apply bsum_ext. intros. ring. }
  rewrite bsum_swap. apply bsum_ext. intros k Hk. rewrite bsum_scal_r. reflexivity.
Qed.
Lemma mv_id T (v : nat -> F p) i : (i < T)%nat -> mv T (fun i j => if (i =? j)%nat then 1 else 0) v i = v i.
Proof.
  intros Hi. unfold mv. rewrite (bsum_single T i); auto.
  - rewrite Nat.eqb_refl. ring.
  - intros j Hj Hji. destruct (Nat.eqb_spec i j); [congruence|ring].
Qed.

Lemma add_vec_len (a b : vec) : length (add_vec a b) = Nat.min (length a) (length b).
Proof. unfold add_vec. now rewrite map_length, combine_length. Qed.
Lemma vget_map2 {A B} (f : A * B -> F p) (a : list A) (b : list B) i da db : (i < length a)%nat -> (i < length b)%nat ->
  vget (map f (combine a b)) i = f (nth i a da, nth i b db).
Proof.
  revert b i. induction a as [|x a IH]; intros [|y b] i Ha Hb; cbn in *; try lia.
  destruct i; [reflexivity|]. apply IH; lia.
Qed.
Lemma vget_add_vec (a b : vec) i : (i < length a)%nat -> (i < length b)%nat ->
  vget (add_vec a b) i = vget a i + vget b i.
Proof. intros. unfold add_vec. rewrite (vget_map2 _ a b i F0 F0) by auto. reflexivity. Qed.
Lemma vget_map (f : F p -> F p) (a : vec) i : (i < length a)%nat -> vget (map f a) i = f (vget a i).
Proof. intros. unfold vget. rewrite (nth_indep _ 0 (f 0)) by now rewrite map_length. apply map_nth. Qed.

Lemma dot_bsum (r v : vec) : length r = length v ->
  fold_right Fadd 0 (map (fun '(a, b) => a * b) (combine r v)) = bsum (length r) (fun j => vget r j * vget v j).
Proof.
  revert v. induction r as [|x r IH]; intros [|y v] H; cbn in H; try lia; [reflexivity|].
  cbn [length]. rewrite bsum_S_l. cbn [combine map fold_right]. rewrite IH by lia. reflexivity.
Qed.
Definition wf_mat (T : nat) (m : mat) : Prop := length m = T /\ Forall (fun r => length r = T) m.
Lemma mat_vec_eq T (m : mat) v : wf_mat T m -> length v = T -> mat_vec m v = mul_vector T m v.
Proof.
  intros [Hl Hr] Hv. unfold mat_vec.
  apply (vec_ext T); [now rewrite map_length | apply tab_len|].
  intros i Hi. rewrite vget_mul_vector by auto. unfold mv.
  set (f := fun row : list (F p) => _). unfold vget at 1.
  rewrite (nth_indep _ 0 (f [])) by (rewrite map_length; lia). rewrite map_nth.
  assert (Hri : length (nth i m []) = T).
  { rewrite Forall_forall in Hr. apply Hr. apply nth_In. lia. }
  unfold f. rewrite dot_bsum by lia. rewrite Hri. reflexivity.
Qed.
Lemma p5_eq (x : F p) : p5 x = fpow5 x.
Proof. unfold p5, fpow5. ring. Qed.
Lemma mat_vec_len (m : mat) v : length (mat_vec m v) = length m.
Proof. apply map_length. Qed.

(** ** The two families of rounds *)
Variables (T : nat) (M Minv : mat).
Hypothesis HM : wf_mat T M.
Hypothesis Hinv : mat_mul T M Minv = mat_identity T.

Lemma M_inv_cancel (v : nat -> F p) i : (i < T)%nat -> mv T (ent M) (mv T (ent Minv) v) i = v i.
Proof.
  intros Hi. rewrite mv_mv. rewrite <- (mv_id T v i Hi). apply mv_ext; auto.
  intros j Hj. assert (E := f_equal (fun m => ent m i j) Hinv). cbn beta in E.
  unfold mat_mul, mat_identity in E. rewrite !ent_tab2 in E by auto. exact E.
Qed.

Lemma full_step s c c' : length s = T -> length c = T -> length c' = T ->
  mul_vector T M (n_sbox_full (add_vec s c) (mul_vector T Minv c')) = add_vec (full_round M s c) c'.
Proof.
  intros Hs Hc Hc'. unfold full_round.
  assert (Hsc : length (add_vec s c) = T) by (rewrite add_vec_len; lia).
  apply (vec_ext T).
  { apply tab_len. } { rewrite add_vec_len, mat_vec_len. destruct HM. lia. }
  intros i Hi. rewrite vget_add_vec by (rewrite ?mat_vec_len; destruct HM; lia).
  rewrite (mat_vec_eq T) by (auto; rewrite map_length; auto).
  rewrite !vget_mul_vector by auto.
  rewrite (mv_ext T (ent M) (ent M) _ (fun j => vget (map p5 (add_vec s c)) j + mv T (ent Minv) (vget c') j)); auto.
  2:{ intros j Hj. unfold n_sbox_full.
      rewrite (vget_map2 _ (add_vec s c) (mul_vector T Minv c') j F0 F0) by (rewrite ?mul_vector_len; lia).
      rewrite vget_map by lia. rewrite p5_eq. f_equal. apply vget_mul_vector; auto. }
  rewrite mv_add. f_equal. apply M_inv_cancel; auto.
Qed.

Lemma full_round_len s c : length (full_round M s c) = T.
Proof. unfold full_round. rewrite mat_vec_len. apply HM. Qed.

Lemma rounds_correct cs : forall s c, length s = T -> length c = T -> Forall (fun c => length c = T) cs ->
  n_rounds T M (map (mul_vector T Minv) cs) (add_vec s c) =
  add_vec (fold_left (full_round M) (removelast (c :: cs)) s) (last (c :: cs) []).
Proof.
  induction cs as [|c' cs IH]; intros s c Hs Hc Hcs; [reflexivity|].
  pose proof (Forall_inv Hcs) as H1; pose proof (Forall_inv_tail Hcs) as H2; cbv beta in H1.
  unfold n_rounds. cbn [map fold_left]. rewrite full_step by auto.
  change (n_rounds T M (map (mul_vector T Minv) cs) (add_vec (full_round M s c) c') =
    add_vec (fold_left (full_round M) (removelast (c :: c' :: cs)) s) (last (c :: c' :: cs) [])).
  rewrite IH by (auto; apply full_round_len).
  reflexivity.
Qed.

Lemma rounds_final s c : length s = T -> length c = T ->
  mul_vector T M (n_sbox_full (add_vec s c) (repeat 0 T)) = full_round M s c.
Proof.
  intros Hs Hc. unfold full_round.
  assert (Hsc : length (add_vec s c) = T) by (rewrite add_vec_len; lia).
  rewrite (mat_vec_eq T) by (auto; rewrite map_length; auto).
  unfold mul_vector. apply tab_ext. intros i Hi. apply bsum_ext. intros j Hj. f_equal.
  unfold n_sbox_full.
  rewrite (vget_map2 _ (add_vec s c) (repeat 0 T) j F0 F0) by (rewrite ?repeat_length; lia).
  rewrite vget_map by lia. rewrite p5_eq. rewrite nth_repeat. unfold vget. ring.
Qed.

(** the chain of factorisations *)
Fixpoint chain (sps : list (sparse (p:=p))) (P : nat -> nat -> F p) : Prop :=
  match sps with
  | [] => forall i j, (i < T)%nat -> (j < T)%nat -> P i j = if (i =? j)%nat then 1 else 0
  | sp :: sps' =>
    length (sp_row sp) = T /\ S (length (sp_col_hat sp)) = T /\ blockdiag T P /\
    exists P', chain sps' P' /\
      forall i j, (i < T)%nat -> (j < T)%nat -> fmul_m T (sp_ent sp) P i j = fmul_m T P' (ent M) i j
  end.

Lemma sparse_loop_chain RATE n : forall acc out P sps acc',
  chain out P ->
  (forall i j, (i < T)%nat -> (j < T)%nat -> ent acc j i = fmul_m T P (ent M) i j) ->
  sparse_loop T RATE (mat_transpose T M) n acc out = Some (sps, acc') ->
  length sps = (n + length out)%nat /\
  exists P', chain sps P' /\
    forall i j, (i < T)%nat -> (j < T)%nat -> ent acc' j i = fmul_m T P' (ent M) i j.
Proof.
  induction n as [|n IH]; intros acc out P sps acc' Hc Ha H; cbn [sparse_loop] in H.
  - injection H as <- <-. split; [reflexivity|]. exists P. auto.
  - destruct (factorise T RATE acc) as [[mp sp]|] eqn:Ef; [|discriminate].
    apply factorise_spec in Ef as (ET & Hr & Hh & Hb & He).
    apply (IH _ _ (fun i j => ent mp j i)) in H.
    + destruct H as [Hl H]. split; [cbn in Hl; lia|exact H].
    + cbn [chain]. split; [auto|]. split; [lia|]. split; [auto|].
      exists P. split; [auto|]. intros i j Hi Hj. rewrite He by auto. apply Ha; auto.
    + intros i j Hi Hj. unfold mat_mul. rewrite ent_tab2 by auto. unfold fmul_m.
      apply bsum_ext. intros k Hk. unfold mat_transpose. rewrite ent_tab2 by auto. ring.
Qed.

(** forward form of the computation of the partial-round constants *)
Fixpoint popt (cs : list vec) (acc : vec) : vec * vec :=
  match cs with
  | [] => (acc, [])
  | c :: cs' =>
    let '(a, ks) := popt cs' acc in
    let tmp := mul_vector T Minv a in
    (tab T (fun i => (if (i =? 0)%nat then 0 else vget tmp i) + vget c i), vget tmp 0 :: ks)
  end.
Lemma partial_consts_snoc (l : list vec) c acc : partial_consts T Minv (l ++ [c]) acc =
  let '(a, ks) := partial_consts T Minv l acc in
  let tmp := mul_vector T Minv a in
  (tab T (fun i => (if (i =? 0)%nat then 0 else vget tmp i) + vget c i), ks ++ [vget tmp 0]).
Proof.
  revert acc. induction l as [|x l IH]; intros acc; [reflexivity|].
  cbn [app partial_consts]. rewrite IH. destruct (partial_consts T Minv l _) as [a ks]. reflexivity.
Qed.
Lemma partial_consts_rev (cs : list vec) acc : partial_consts T Minv (rev cs) acc =
  let '(a, ks) := popt cs acc in (a, rev ks).
Proof.
  induction cs as [|c cs IH]; [reflexivity|].
  cbn [rev popt]. rewrite partial_consts_snoc, IH. destruct (popt cs acc) as [a ks]. reflexivity.
Qed.
Lemma popt_len cs acc : length acc = T -> length (fst (popt cs acc)) = T /\ length (snd (popt cs acc)) = length cs.
Proof.
  intros H. induction cs as [|c cs IH]; [auto|]. cbn [popt]. destruct (popt cs acc) as [a ks]. cbn in *.
  rewrite tab_len. lia.
Qed.

Lemma n_sparse_mv (sp : sparse (p:=p)) s i : length (sp_row sp) = T -> S (length (sp_col_hat sp)) = T -> length s = T ->
  (i < T)%nat -> vget (n_sparse T sp s) i = mv T (sp_ent sp) (vget s) i.
Proof.
  intros Hr Hh Hs Hi. unfold n_sparse. destruct i as [|i]; [reflexivity|].
  change (vget (?x :: ?l) (S i)) with (vget l i).
  rewrite (vget_map2 _ (sp_col_hat sp) (skipn 1 s) i F0 F0) by (rewrite ?skipn_length; lia).
  unfold mv. destruct T as [|T']; [lia|]. rewrite bsum_S_l. cbn [sp_ent].
  rewrite (bsum_single T' i); [|lia|].
  - cbn [sp_ent]. rewrite Nat.eqb_refl. destruct s as [|s0 s]; [discriminate|]. cbn [skipn]. unfold vget. cbn [nth]. ring.
  - intros j Hj Hji. cbn [sp_ent]. destruct (Nat.eqb_spec (S i) (S j)); [lia|ring].
Qed.
Lemma n_sparse_len (sp : sparse (p:=p)) s : S (length (sp_col_hat sp)) = T -> length s = T -> length (n_sparse T sp s) = T.
Proof. intros. unfold n_sparse. cbn [length]. rewrite map_length, combine_length, skipn_length. lia. Qed.
Lemma n_sbox_part_len (s : vec) k : length (n_sbox_part s k) = length s.
Proof. destruct s; reflexivity. Qed.
Lemma vget_sbox_part (s : vec) k i : s <> [] -> vget (n_sbox_part s k) i = if (i =? 0)%nat then fpow5 (vget s 0) + k else vget s i.
Proof. intros. destruct s; [congruence|]. destruct i; reflexivity. Qed.

Lemma partial_round_len s c : length (partial_round M s c) = T.
Proof. unfold partial_round. rewrite mat_vec_len. apply HM. Qed.
Lemma vget_partial_round s c i : length s = T -> length c = T -> (i < T)%nat ->
  vget (partial_round M s c) i =
  mv T (ent M) (fun j => if (j =? 0)%nat then fpow5 (vget s 0 + vget c 0) else vget s j + vget c j) i.
Proof.
  intros Hs Hc Hi. unfold partial_round.
  assert (Hsc : length (add_vec s c) = T) by (rewrite add_vec_len; lia).
  assert (Hv : forall j, (j < T)%nat -> vget (add_vec s c) j = vget s j + vget c j) by (intros; apply vget_add_vec; lia).
  destruct (add_vec s c) as [|x r]; [cbn in Hsc; lia|].
  rewrite (mat_vec_eq T) by auto. rewrite vget_mul_vector by auto. apply mv_ext; auto.
  intros j Hj. destruct j as [|j].
  - cbn [Nat.eqb]. rewrite <- Hv by auto. cbn. apply p5_eq.
  - cbn [Nat.eqb]. rewrite <- Hv by auto. reflexivity.
Qed.

Lemma partial_correct cs : forall sps P x accE, chain sps P -> length sps = length cs -> length x = T ->
  length accE = T -> Forall (fun c => length c = T) cs -> (0 < T)%nat ->
  forall o, length o = T ->
  (forall i, (i < T)%nat -> vget o i = mv T P (fun j => vget x j + vget (fst (popt cs accE)) j) i) ->
  n_partial T (snd (popt cs accE)) sps o = add_vec (fold_left (partial_round M) cs x) accE.
Proof.
  induction cs as [|c cs IH]; intros sps P x accE Hch Hl Hx HaE Hcs HT o Ho Hoi.
  - destruct sps; [|discriminate]. cbn [popt fst snd fold_left] in *. unfold n_partial. cbn [combine fold_left].
    apply (vec_ext T); [auto | rewrite add_vec_len; lia|].
    intros i Hi. rewrite Hoi by auto. rewrite vget_add_vec by lia. cbn [chain] in Hch.
    rewrite (mv_ext T P (fun i j => if (i =? j)%nat then 1 else 0) _ (fun j => vget x j + vget accE j)); auto.
    rewrite mv_id by auto. reflexivity.
  - destruct sps as [|sp sps]; [discriminate|]. cbn [length] in Hl.
    pose proof (Forall_inv Hcs) as H1; pose proof (Forall_inv_tail Hcs) as H2; cbv beta in H1. cbn [chain] in Hch. destruct Hch as (Hr & Hh & [Hb0 Hb] & P' & Hch & He).
    pose proof (popt_len cs accE HaE) as Hpl. cbn [popt] in *.
    specialize (IH sps P' (partial_round M x c) accE Hch ltac:(lia) (partial_round_len _ _) HaE H2 HT).
    destruct (popt cs accE) as [a ks]. cbn [fst snd] in *. destruct Hpl as [Hal Hkl].
    unfold n_partial. cbn [combine fold_left].
    apply IH.
    + apply n_sparse_len; auto. rewrite n_sbox_part_len. auto.
    + intros i Hi. rewrite n_sparse_mv by (auto; rewrite n_sbox_part_len; auto).
      (* S1 (P y) + k e0 = P (S1 y + k e0) *)
      set (tmp := mul_vector T Minv a) in *. set (k := vget tmp 0).
      set (y := fun j => vget x j + ((if (j =? 0)%nat then 0 else vget tmp j) + vget c j)).
      assert (Hy : forall i, (i < T)%nat -> vget o i = mv T P y i).
      { intros i' Hi'. rewrite Hoi by auto. apply mv_ext; auto. intros j Hj. rewrite vget_tab by auto. reflexivity. }
      set (z := fun j => if (j =? 0)%nat then fpow5 (y O) + k else y j).
      assert (Hz : forall j, (j < T)%nat -> vget (n_sbox_part o k) j = mv T P z j).
      { intros j Hj. rewrite vget_sbox_part by (destruct o; cbn in Ho; [lia|congruence]).
        unfold mv. destruct T as [|T']; [lia|]. rewrite bsum_S_l.
        destruct j as [|j]; cbn [Nat.eqb].
        - rewrite Hb0. rewrite bsum_0 by (intros q Hq; destruct (Hb (S q)) as [-> _]; [lia|lia|ring]).
          rewrite Hy by lia. unfold mv. rewrite bsum_S_l, Hb0.
          rewrite bsum_0 by (intros q Hq; destruct (Hb (S q)) as [-> _]; [lia|lia|ring]).
          unfold z. cbn [Nat.eqb]. replace (1 * y O + 0) with (y O) by ring. ring.
        - rewrite Hy by lia. unfold mv. rewrite bsum_S_l. destruct (Hb (S j)) as [_ ->]; [lia|lia|].
          replace (0 * z O) with (0 * y O) by ring. reflexivity. }
      rewrite (mv_ext T (sp_ent sp) (sp_ent sp) _ (mv T P z)); auto.
      rewrite mv_mv. rewrite (mv_ext T _ (fmul_m T P' (ent M)) z z); auto.
      rewrite <- mv_mv. apply mv_ext; auto. intros j Hj.
      rewrite vget_partial_round by auto.
      rewrite <- (M_inv_cancel (vget a) j Hj). rewrite <- mv_add. apply mv_ext; auto.
      intros q Hq. unfold z, k, tmp. rewrite <- vget_mul_vector by auto. fold tmp.
      destruct (Nat.eqb_spec q 0) as [->|Hq0].
      * unfold y. cbn [Nat.eqb]. replace (0 + vget c 0) with (vget c 0) by ring. ring.
      * unfold y. destruct (Nat.eqb_spec q 0); [lia|]. ring.
Qed.
End Opt.
