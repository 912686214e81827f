(** Linear algebra over F_p used to justify the matrix code of the optimised Poseidon specification
    (halo2-base/src/poseidon/hasher/mds.rs).  Nothing here models code: it is the mathematics
    (Laplace determinants, Cramer's rule) against which that code is judged. *)
From Coq Require Import ZArith Znumtheory Lia List Bool Arith Ring.
From Verif Require Import Field GateProofs.
Import ListNotations.

Section Det.
Context {p : positive}.
Add Ring Fring : (F_ring p) (morphism (F_morph p), constants [Fcst]).
Local Open Scope F_scope.

(** ** Finite sums *)
Fixpoint bsum (n : nat) (f : nat -> F p) : F p :=
  match n with O => 0 | S m => bsum m f + f m end.

Lemma bsum_ext n f g : (forall i, (i < n)%nat -> f i = g i) -> bsum n f = bsum n g.
Proof.
  induction n as [|n IH]; intros H; cbn; [reflexivity|].
  rewrite IH, H by (try intros; try apply H; lia). reflexivity.
Qed.
Lemma bsum_0 n f : (forall i, (i < n)%nat -> f i = 0) -> bsum n f = 0.
Proof.
  induction n as [|n IH]; intros H; cbn; [reflexivity|].
  rewrite IH, H by (try intros; try apply H; lia). ring.
Qed.
Lemma bsum_add n f g : bsum n (fun i => f i + g i) = bsum n f + bsum n g.
Proof. induction n as [|n IH]; cbn; [ring|]. rewrite IH. ring. Qed.
Lemma bsum_scal n c f : bsum n (fun i => c * f i) = c * bsum n f.
Proof. induction n as [|n IH]; cbn; [ring|]. rewrite IH. ring. Qed.
Lemma bsum_scal_r n c f : bsum n (fun i => f i * c) = bsum n f * c.
Proof. induction n as [|n IH]; cbn; [ring|]. rewrite IH. ring. Qed.
Lemma bsum_swap n m (f : nat -> nat -> F p) :
  bsum n (fun i => bsum m (fun j => f i j)) = bsum m (fun j => bsum n (fun i => f i j)).
Proof.
  induction n as [|n IH]; cbn.
  - symmetry. apply bsum_0. reflexivity.
  - rewrite IH, <- bsum_add. reflexivity.
Qed.
Lemma bsum_single n k f : (k < n)%nat -> (forall i, (i < n)%nat -> i <> k -> f i = 0) -> bsum n f = f k.
Proof.
  induction n as [|n IH]; intros Hk H; [lia|]. cbn.
  destruct (Nat.eq_dec k n) as [->|Hn].
  - rewrite bsum_0. ring. intros i Hi. apply H; lia.
  - rewrite IH by (try intros; try apply H; lia). rewrite (H n) by lia. ring.
Qed.
Lemma bsum_two n a b f : (a < n)%nat -> (b < n)%nat -> a <> b ->
  (forall i, (i < n)%nat -> i <> a -> i <> b -> f i = 0) -> bsum n f = f a + f b.
Proof.
  induction n as [|n IH]; intros Ha Hb Hab H; [lia|]. cbn.
  destruct (Nat.eq_dec a n) as [->|Han].
  - rewrite (bsum_single n b) by (try intros; try apply H; lia). ring.
  - destruct (Nat.eq_dec b n) as [->|Hbn].
    + rewrite (bsum_single n a) by (try intros; try apply H; lia). ring.
    + rewrite IH by (try intros; try apply H; lia). rewrite (H n) by lia. ring.
Qed.
Lemma bsum_S_l n f : bsum (S n) f = f O + bsum n (fun i => f (S i)).
Proof. induction n as [|n IH]; [cbn; ring|]. cbn [bsum] in *. rewrite IH. ring. Qed.

(** ** Determinants, by expansion along the first column *)
Definition skp (i r : nat) : nat := if (r <? i)%nat then r else S r.
Definition minor (i : nat) (M : nat -> nat -> F p) : nat -> nat -> F p := fun r c => M (skp i r) (S c).
Fixpoint sgn (i : nat) : F p := match i with O => 1 | S j => - sgn j end.
Fixpoint det (n : nat) (M : nat -> nat -> F p) : F p :=
  match n with
  | O => 1
  | S m => bsum n (fun i => sgn i * M i O * det m (minor i M))
  end.

Lemma skp_lt i r n : (i < S n)%nat -> (r < n)%nat -> (skp i r < S n)%nat.
Proof. unfold skp. intros. destruct (Nat.ltb_spec r i); lia. Qed.

Lemma det_ext n : forall M N, (forall r c, (r < n)%nat -> (c < n)%nat -> M r c = N r c) -> det n M = det n N.
Proof.
  induction n as [|n IH]; intros M N H; [reflexivity|].
  cbn [det]. apply bsum_ext. intros i Hi. rewrite (H i O) by lia. f_equal.
  apply IH. intros r c Hr Hc. unfold minor. apply H; [apply skp_lt; auto | lia].
Qed.

(** row update *)
Definition rupd (M : nat -> nat -> F p) (r : nat) (u : nat -> F p) : nat -> nat -> F p :=
  fun i j => if (i =? r)%nat then u j else M i j.

Lemma minor_rupd_same r M u : forall a b, minor r (rupd M r u) a b = minor r M a b.
Proof.
  intros a b. unfold minor, rupd, skp.
  destruct (Nat.ltb_spec a r).
  - destruct (Nat.eqb_spec a r); [lia|reflexivity].
  - destruct (Nat.eqb_spec (S a) r); [lia|reflexivity].
Qed.
Definition unskp (i r : nat) : nat := if (r <? i)%nat then r else (r - 1)%nat.
Lemma minor_rupd_diff i r M u : i <> r -> forall a b,
  minor i (rupd M r u) a b = rupd (minor i M) (unskp i r) (fun c => u (S c)) a b.
Proof.
  intros Hir a b. unfold minor, rupd, skp, unskp.
  destruct (Nat.ltb_spec r i), (Nat.ltb_spec a i);
  repeat match goal with |- context[Nat.eqb ?x ?y] => destruct (Nat.eqb_spec x y) end; try lia; reflexivity.
Qed.
Lemma unskp_lt i r n : (i < S n)%nat -> (r < S n)%nat -> i <> r -> (unskp i r < n)%nat.
Proof. unfold unskp. intros. destruct (Nat.ltb_spec r i); lia. Qed.

Lemma det_row_lin n : forall M r a b u v, (r < n)%nat ->
  det n (rupd M r (fun c => a * u c + b * v c)) = a * det n (rupd M r u) + b * det n (rupd M r v).
Proof.
  induction n as [|n IH]; intros M r a b u v Hr; [lia|].
  cbn [det]. rewrite <- !bsum_scal, <- bsum_add. apply bsum_ext. intros i Hi.
  destruct (Nat.eq_dec i r) as [->|Hir].
  - rewrite !(det_ext n (minor r (rupd M r _)) (minor r M)) by (intros; apply minor_rupd_same).
    unfold rupd. rewrite Nat.eqb_refl. ring.
  - rewrite !(det_ext n (minor i (rupd M r _)) _ (fun x y _ _ => minor_rupd_diff i r M _ Hir x y)).
    rewrite IH by (apply unskp_lt; lia).
    assert (Q : forall w, rupd M r w i O = M i O) by (intros; unfold rupd; destruct (Nat.eqb_spec i r); [lia|reflexivity]).
    rewrite !Q.
    ring.
Qed.

Lemma det_adj n : forall M r, (S r < n)%nat -> (forall c, (c < n)%nat -> M r c = M (S r) c) -> det n M = 0.
Proof.
  induction n as [|n IH]; intros M r Hr He; [lia|].
  cbn [det].
  assert (Z0 : forall i, (i < S n)%nat -> i <> r -> i <> S r -> sgn i * M i O * det n (minor i M) = 0).
  { intros i Hi H1 H2. rewrite (IH (minor i M) (unskp i r)); [ring| |].
    - unfold unskp; destruct (Nat.ltb_spec r i); lia.
    - intros c Hc. unfold minor, skp, unskp.
      destruct (Nat.ltb_spec r i).
      + destruct (Nat.ltb_spec r i); [|lia]. destruct (Nat.ltb_spec (S r) i); [|lia]. apply He; lia.
      + destruct (Nat.ltb_spec (r-1) i); [lia|]. destruct (Nat.ltb_spec (S (r-1)) i); [lia|].
        replace (S (r - 1)) with r by lia. apply He; lia. }
  rewrite (bsum_two (S n) r (S r)); [|lia|lia|lia|exact Z0].
  rewrite (det_ext n (minor (S r) M) (minor r M)).
  - rewrite (He O) by lia. cbn [sgn]. ring.
  - intros a c Ha Hc. unfold minor, skp.
    destruct (Nat.ltb_spec a (S r)), (Nat.ltb_spec a r); try lia; try reflexivity.
    assert (a = r) by lia. subst. apply He. lia.
Qed.

Lemma rupd_id M r : forall i j, rupd M r (M r) i j = M i j.
Proof. intros. unfold rupd. destruct (Nat.eqb_spec i r); congruence. Qed.

(** exchanging the contents of rows [r] and [s] *)
Definition rswap (M : nat -> nat -> F p) (r s : nat) : nat -> nat -> F p :=
  fun i j => if (i =? r)%nat then M s j else if (i =? s)%nat then M r j else M i j.

Lemma swap_from_alt n r s : (r < n)%nat -> (s < n)%nat -> r <> s ->
  (forall M, (forall c, (c < n)%nat -> M r c = M s c) -> det n M = 0) ->
  forall M, det n (rswap M r s) = - det n M.
Proof.
  intros Hr Hs Hrs Halt M.
  set (u := M r). set (v := M s).
  set (W := fun x y => rupd (rupd M r x) s y).
  assert (E : det n (W (fun c => 1 * u c + 1 * v c) (fun c => 1 * u c + 1 * v c)) =
      det n (W u u) + det n (W u v) + det n (W v u) + det n (W v v)).
  { unfold W. rewrite det_row_lin by auto.
    assert (C : forall x y, det n (rupd (rupd M r x) s y) = det n (rupd (rupd M s y) r x)).
    { intros. apply det_ext. intros i j _ _. unfold rupd.
      destruct (Nat.eqb_spec i s), (Nat.eqb_spec i r); congruence. }
    rewrite !(C (fun c => 1 * u c + 1 * v c)), !det_row_lin by auto. rewrite !C. ring. }
  assert (HW : forall x, det n (W x x) = 0).
  { intros x. apply Halt. intros c Hc. unfold W, rupd. rewrite !Nat.eqb_refl. destruct (Nat.eqb_spec r s); congruence. }
  rewrite !HW in E.
  rewrite (det_ext n (W u v) M) in E.
  2:{ intros i j _ _. unfold W, rupd, u, v. destruct (Nat.eqb_spec i s), (Nat.eqb_spec i r); congruence. }
  rewrite (det_ext n (rswap M r s) (W v u)).
  2:{ intros i j _ _. unfold W, rswap, rupd, u, v. destruct (Nat.eqb_spec i s), (Nat.eqb_spec i r); congruence. }
  replace (det n (W v u)) with ((0 + det n M + det n (W v u) + 0) - det n M) by ring.
  rewrite <- E. ring.
Qed.

Lemma det_alt_lt n : forall d r s M, (s < n)%nat -> s = (r + S d)%nat ->
  (forall c, (c < n)%nat -> M r c = M s c) -> det n M = 0.
Proof.
  induction d as [|d IH]; intros r s M Hs Hd He.
  - apply (det_adj n M r); [lia|]. intros c Hc. replace (S r) with s by lia. auto.
  - assert (Hsw : det n (rswap M (s - 1) s) = - det n M).
    { apply swap_from_alt; try lia. intros N HN. apply (det_adj n N (s - 1)); [lia|].
      intros c Hc. replace (S (s - 1)) with s by lia. auto. }
    rewrite (IH r (s - 1)%nat (rswap M (s-1) s)) in Hsw; try lia.
    + replace (det n M) with (- - det n M) by ring. rewrite <- Hsw. ring.
    + intros c Hc. unfold rswap. rewrite Nat.eqb_refl.
      destruct (Nat.eqb_spec r (s - 1)); [lia|]. destruct (Nat.eqb_spec r s); [lia|]. auto.
Qed.
Lemma det_alt n r s M : (r < n)%nat -> (s < n)%nat -> r <> s ->
  (forall c, (c < n)%nat -> M r c = M s c) -> det n M = 0.
Proof.
  intros Hr Hs Hrs He. destruct (Nat.lt_total r s) as [H|[H|H]]; [|lia|].
  - apply (det_alt_lt n (s - r - 1) r s M); auto; lia.
  - apply (det_alt_lt n (r - s - 1) s r M); auto; try lia. intros. symmetry. auto.
Qed.
Lemma det_swap n r s M : (r < n)%nat -> (s < n)%nat -> r <> s -> det n (rswap M r s) = - det n M.
Proof. intros. apply swap_from_alt; auto. intros. apply (det_alt n r s); auto. Qed.

(** adding multiples of row 0 to the other rows *)
Definition rops (M : nat -> nat -> F p) (k : nat -> F p) : nat -> nat -> F p :=
  fun i j => if (i =? 0)%nat then M i j else M i j - M O j * k i.

Lemma det_rowop1 n M s k : (s < n)%nat -> s <> O ->
  det n (rupd M s (fun c => M s c - M O c * k)) = det n M.
Proof.
  intros Hs H0.
  rewrite (det_ext n _ (rupd M s (fun c => 1 * M s c + (- k) * M O c))).
  2:{ intros i j _ _. unfold rupd. destruct (Nat.eqb_spec i s); [|reflexivity]. ring. }
  rewrite det_row_lin by auto.
  rewrite (det_alt n O s (rupd M s (M O))); try lia.
  - rewrite (det_ext n (rupd M s (M s)) M) by (intros; apply rupd_id). ring.
  - intros c Hc. unfold rupd. rewrite Nat.eqb_refl. destruct (Nat.eqb_spec 0 s); congruence.
Qed.

Lemma det_rops n M k : det n (rops M k) = det n M.
Proof.
  assert (G : forall m, (m <= n)%nat ->
    det n (fun i j => if (i <? m)%nat then rops M k i j else M i j) = det n M).
  { induction m as [|m IH]; intros Hm.
    - apply det_ext. reflexivity.
    - rewrite <- IH by lia.
      destruct (Nat.eq_dec m 0) as [->|Hm0].
      + apply det_ext. intros i j _ _. destruct (Nat.ltb_spec i 1), (Nat.ltb_spec i 0); try lia; auto.
        unfold rops. destruct (Nat.eqb_spec i 0); [reflexivity|lia].
      + rewrite <- (det_rowop1 n (fun i j => if (i <? m)%nat then rops M k i j else M i j) m (k m)) by lia.
        apply det_ext. intros i j _ _. unfold rupd, rops.
        destruct (Nat.eqb_spec i m) as [->|Him].
        * destruct (Nat.ltb_spec m (S m)), (Nat.ltb_spec m m), (Nat.ltb_spec 0 m); try lia.
          destruct (Nat.eqb_spec m 0); [lia|]. reflexivity.
        * destruct (Nat.ltb_spec i (S m)), (Nat.ltb_spec i m); try lia; reflexivity. }
  rewrite <- (G n) by lia. apply det_ext. intros i j Hi _.
  destruct (Nat.ltb_spec i n); [reflexivity|lia].
Qed.

Lemma det_col0 n M : (forall i, (i < n)%nat -> M (S i) O = 0) ->
  det (S n) M = M O O * det n (fun i j => M (S i) (S j)).
Proof.
  intros H. cbn [det]. rewrite (bsum_single (S n) O); [|lia|].
  2:{ intros i Hi H0. destruct i as [|i]; [lia|]. rewrite (H i) by lia. ring. }
  cbn [sgn]. rewrite (det_ext n (minor O M) (fun i j => M (S i) (S j))) by reflexivity. ring.
Qed.
Lemma det_col0_zero n M : (forall i, (i < S n)%nat -> M i O = 0) -> det (S n) M = 0.
Proof. intros H. cbn [det]. apply bsum_0. intros i Hi. rewrite H by auto. ring. Qed.

(** ** Columns *)
Definition cupd (M : nat -> nat -> F p) (c : nat) (u : nat -> F p) : nat -> nat -> F p :=
  fun i j => if (j =? c)%nat then u i else M i j.

Lemma det_col_lin n : forall M c a b u v, (c < n)%nat ->
  det n (cupd M c (fun r => a * u r + b * v r)) = a * det n (cupd M c u) + b * det n (cupd M c v).
Proof.
  induction n as [|n IH]; intros M c a b u v Hc; [lia|].
  cbn [det]. rewrite <- !bsum_scal, <- bsum_add. apply bsum_ext. intros i Hi.
  destruct c as [|c].
  - assert (Q1 : forall w, det n (minor i (cupd M 0 w)) = det n (minor i M)) by (intros; apply det_ext; reflexivity).
    rewrite !Q1.
    assert (Q : forall w, cupd M 0 w i O = w i) by reflexivity. rewrite !Q.
    ring.
  - assert (Q1 : forall w, det n (minor i (cupd M (S c) w)) = det n (cupd (minor i M) c (fun r => w (skp i r)))) by (intros; apply det_ext; reflexivity).
    rewrite !Q1.
    rewrite IH by lia. assert (Q : forall w, cupd M (S c) w i O = M i O) by reflexivity. rewrite !Q.
    ring.
Qed.

(** [mv n M v]: matrix times vector *)
Definition mv (n : nat) (M : nat -> nat -> F p) (v : nat -> F p) : nat -> F p :=
  fun i => bsum n (fun j => M i j * v j).

Hypothesis Hp : prime (Z.pos p).

Lemma Finv_r (a : F p) : a <> 0 -> a * Finv a = 1.
Proof. intros. rewrite (F_ring p).(Rmul_comm). apply Finv_l; auto. Qed.

Lemma mul_zero (a b : F p) : a * b = 0 -> a <> 0 -> b = 0.
Proof. intros H Ha. destruct (F_integral _ Hp _ _ H); congruence. Qed.

Definition pivot_sub (M : nat -> nat -> F p) : nat -> nat -> F p :=
  fun i j => M (S i) (S j) - M O (S j) * (M (S i) O * Finv (M O O)).

Lemma det_pivot n M : M O O <> 0 -> det (S n) M = M O O * det n (pivot_sub M).
Proof.
  intros H0. rewrite <- (det_rops (S n) M (fun i => M i O * Finv (M O O))).
  rewrite det_col0.
  - unfold rops at 1. cbn. f_equal. 
  - intros i Hi. unfold rops. cbn.
    replace (M O O * (M (S i) O * Finv (M O O))) with (M (S i) O * (M O O * Finv (M O O))) by ring.
    rewrite Finv_r by auto. ring.
Qed.

(** either the first column vanishes, or some row can be brought to the top *)
Lemma pivot_cases n (M : nat -> nat -> F p) : (forall i, (i < n)%nat -> M i O = 0) \/ exists k, (k < n)%nat /\ M k O <> 0.
Proof.
  induction n as [|n [IH|[k [Hk H]]]].
  - left; lia.
  - destruct (F_dec p (M n O) 0) as [E|E].
    + left. intros i Hi. destruct (Nat.eq_dec i n) as [->|]; auto. apply IH; lia.
    + right. exists n. auto.
  - right. exists k. split; [lia|auto].
Qed.

Lemma mv_rswap n M r s v i : mv n (rswap M r s) v i =
  if (i =? r)%nat then mv n M v s else if (i =? s)%nat then mv n M v r else mv n M v i.
Proof. unfold mv, rswap. destruct (Nat.eqb_spec i r), (Nat.eqb_spec i s); reflexivity. Qed.

Lemma mv_pivot n M v i : M O O <> 0 ->
  mv n (pivot_sub M) (fun j => v (S j)) i =
  mv (S n) M v (S i) - mv (S n) M v O * (M (S i) O * Finv (M O O)).
Proof.
  intros H0. unfold mv. rewrite !bsum_S_l. unfold pivot_sub.
  rewrite (bsum_ext n _ (fun j => M (S i) (S j) * v (S j) + (- (M (S i) O * Finv (M O O))) * (M O (S j) * v (S j))))
    by (intros; ring).
  rewrite bsum_add, bsum_scal.
  set (A := bsum n _). set (B := bsum n _).
  transitivity (A + - (M (S i) O * Finv (M O O)) * B + (M (S i) O * v O - M (S i) O * v O * (M O O * Finv (M O O)))).
  - rewrite Finv_r by auto. ring.
  - ring.
Qed.

Lemma det_null n : forall M v, (forall i, (i < n)%nat -> mv n M v i = 0) ->
  (exists j, (j < n)%nat /\ v j <> 0) -> det n M = 0.
Proof.
  induction n as [|n IH]; intros M v Hmv [j [Hj Hv]]; [lia|].
  destruct (pivot_cases (S n) M) as [Hz|[k [Hk Hkz]]].
  { apply det_col0_zero; auto. }
  assert (G : forall N, (forall i, (i < S n)%nat -> mv (S n) N v i = 0) -> N O O <> 0 -> det (S n) N = 0).
  { intros N HN HN0. rewrite det_pivot by auto.
    rewrite (IH (pivot_sub N) (fun j => v (S j))); [ring| |].
    - intros i Hi. rewrite mv_pivot by auto. rewrite !HN by lia. ring.
    - assert (T : (exists j, (j < n)%nat /\ v (S j) <> 0) \/ (forall j, (j < n)%nat -> v (S j) = 0)).
      { clear. induction n as [|n [[j [Hj H]]|H]].
        - right; lia.
        - left; exists j; split; [lia|auto].
        - destruct (F_dec p (v (S n)) 0).
          + right. intros j Hj. destruct (Nat.eq_dec j n) as [->|]; auto. apply H; lia.
          + left. exists n. split; [lia|auto]. }
      destruct T as [T|T]; [exact T|exfalso].
      destruct j as [|j].
      + specialize (HN O ltac:(lia)). unfold mv in HN. rewrite bsum_S_l, bsum_0 in HN.
        * apply Hv. apply (mul_zero (N O O)); auto. rewrite <- HN. ring.
        * intros i Hi. rewrite T by auto. ring.
      + apply Hv. apply T. lia. }
  destruct (Nat.eq_dec k 0) as [->|Hk0]; [apply G; auto|].
  assert (E : det (S n) (rswap M 0 k) = 0).
  { apply G.
    - intros i Hi. rewrite mv_rswap. destruct (Nat.eqb_spec i 0); [apply Hmv; lia|].
      destruct (Nat.eqb_spec i k); apply Hmv; lia.
    - unfold rswap. cbn. auto. }
  rewrite det_swap in E by lia. replace (det (S n) M) with (- - det (S n) M) by ring. rewrite E. ring.
Qed.

Lemma det_solve n : forall M w, det n M <> 0 -> exists x, forall i, (i < n)%nat -> mv n M x i = w i.
Proof.
  induction n as [|n IH]; intros M w Hd.
  { exists (fun _ => 0). lia. }
  destruct (pivot_cases (S n) M) as [Hz|[k [Hk Hkz]]].
  { exfalso. apply Hd. apply det_col0_zero; auto. }
  assert (G : forall N w, det (S n) N <> 0 -> N O O <> 0 -> exists x, forall i, (i < S n)%nat -> mv (S n) N x i = w i).
  { clear M w Hd k Hk Hkz. intros N w HN HN0. rewrite det_pivot in HN by auto.
    assert (Hs : det n (pivot_sub N) <> 0) by (intros E; apply HN; rewrite E; ring).
    destruct (IH _ (fun i => w (S i) - w O * (N (S i) O * Finv (N O O))) Hs) as [x Hx].
    set (x0 := Finv (N O O) * (w O - bsum n (fun j => N O (S j) * x j))).
    set (y := fun j => match j with O => x0 | S j => x j end).
    exists y.
    assert (H0 : mv (S n) N y O = w O).
    { unfold mv. rewrite bsum_S_l. cbn [y]. unfold x0.
      set (B := bsum n _).
      replace (N O O * (Finv (N O O) * (w O - B))) with ((N O O * Finv (N O O)) * (w O - B)) by ring.
      rewrite Finv_r by auto. fold y. change (bsum n (fun i => N O (S i) * y (S i))) with B. ring. }
    intros [|i] Hi; [exact H0|].
    pose proof (mv_pivot n N y i HN0) as E. cbn [y] in E.
    change (mv n (pivot_sub N) x i = mv (S n) N y (S i) - mv (S n) N y O * (N (S i) O * Finv (N O O))) in E.
    rewrite Hx, H0 in E by lia.
    replace (mv (S n) N y (S i)) with (mv (S n) N y (S i) - w O * (N (S i) O * Finv (N O O)) + w O * (N (S i) O * Finv (N O O))) by ring.
    rewrite <- E. ring. }
  destruct (Nat.eq_dec k 0) as [->|Hk0]; [apply G; auto|].
  destruct (G (rswap M 0 k) (fun i => if (i =? 0)%nat then w k else if (i =? k)%nat then w O else w i)) as [x Hx].
  - rewrite det_swap by lia. intros E. apply Hd. replace (det (S n) M) with (- - det (S n) M) by ring. rewrite E; ring.
  - unfold rswap; cbn; auto.
  - exists x. intros i Hi.
    destruct (Nat.eq_dec i 0) as [->|Hi0].
    + specialize (Hx k Hk). rewrite mv_rswap in Hx. destruct (Nat.eqb_spec k 0); [lia|].
      rewrite Nat.eqb_refl in Hx. exact Hx.
    + destruct (Nat.eq_dec i k) as [->|Hik].
      * specialize (Hx O ltac:(lia)). rewrite mv_rswap in Hx. cbn in Hx. exact Hx.
      * specialize (Hx i Hi). rewrite mv_rswap in Hx.
        destruct (Nat.eqb_spec i 0); [lia|]. destruct (Nat.eqb_spec i k); [lia|]. exact Hx.
Qed.

(** Cramer's rule *)
Theorem cramer n M w : det n M <> 0 -> forall i, (i < n)%nat ->
  mv n M (fun j => det n (cupd M j w) * Finv (det n M)) i = w i.
Proof.
  intros Hd. destruct (det_solve n M w Hd) as [x Hx].
  assert (E : forall j, (j < n)%nat -> det n (cupd M j w) = x j * det n M).
  { intros j Hj.
    (* column w - x_j * M_j : the matrix has a null vector *)
    assert (Z0 : det n (cupd M j (fun r => 1 * w r + (- x j) * M r j)) = 0).
    { apply (det_null n _ (fun c => if (c =? j)%nat then 1 else - x c)).
      - intros i Hi. unfold mv.
        rewrite (bsum_ext n _ (fun c => (- (M i c * x c)) + (if (c =? j)%nat then w i else 0))).
        + rewrite bsum_add. rewrite (bsum_single n j (fun c => if (c =? j)%nat then w i else 0)).
          * rewrite Nat.eqb_refl.
            rewrite (bsum_ext n (fun c => - (M i c * x c)) (fun c => (- (1)) * (M i c * x c))) by (intros; ring).
            rewrite bsum_scal. specialize (Hx i Hi). unfold mv in Hx. rewrite Hx. ring.
          * auto.
          * intros c Hc Hcj. destruct (Nat.eqb_spec c j); congruence.
        + intros c Hc. unfold cupd. destruct (Nat.eqb_spec c j) as [->|]; ring.
      - exists j. split; auto. rewrite Nat.eqb_refl. apply F1_neq_0; auto. }
    rewrite det_col_lin in Z0 by auto.
    rewrite (det_ext n (cupd M j (fun r => M r j)) M) in Z0.
    2:{ intros a b _ _. unfold cupd. destruct (Nat.eqb_spec b j); congruence. }
    replace (det n (cupd M j w)) with ((1 * det n (cupd M j w) + - x j * det n M) + x j * det n M) by ring.
    rewrite Z0. ring. }
  intros i Hi. rewrite <- (Hx i Hi). unfold mv. apply bsum_ext. intros j Hj. rewrite E by auto.
  replace (x j * det n M * Finv (det n M)) with (x j * (det n M * Finv (det n M))) by ring.
  rewrite Finv_r by auto. ring.
Qed.
End Det.
