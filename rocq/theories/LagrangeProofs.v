(** Lagrange interpolation: polynomial facts and the correctness of [lagrange_and_eval]. *)
From Coq Require Import ZArith Lia List Bool Znumtheory Ring.
From Verif Require Import Field Context ContextProofs Spec Logic Utils Gate GateProofs ChainProofs IPProofs BitProofs PowProofs Derived.
Import ListNotations.
Local Open Scope nat_scope.
Local Open Scope monad_scope.

Lemma Forall2_nth_err {A B} (R : A -> B -> Prop) l l' : Forall2 R l l' -> forall i a b,
  nth_error l i = Some a -> nth_error l' i = Some b -> R a b.
Proof. induction 1; intros [|i] a b E1 E2; cbn in *; try discriminate; [congruence|eauto]. Qed.
Lemma firstn_S_nth {A} (d : A) l : forall i, i < length l -> firstn (S i) l = firstn i l ++ [nth i l d].
Proof. induction l as [|q l IH]; intros i Hi; cbn in Hi; [lia|]. destruct i; [reflexivity|]. cbn [firstn nth app]. f_equal. apply IH. lia. Qed.
(** ** polynomials as coefficient lists *)
Section Poly.
Context {p : positive} (Hp : prime (Z.pos p)).
Notation Fp := (F p).
Add Ring Fring : (F_ring p) (morphism (F_morph p), constants [Fcst]).

Fixpoint sdiv (r : Fp) (c : list Fp) : list Fp :=
  match c with [] => [] | _ :: c' => match c' with [] => [] | _ => peval c' r :: sdiv r c' end end.
Lemma sdiv_len r c : length (sdiv r c) = length c - 1.
Proof.
  induction c as [|a c IH]; cbn; auto. destruct c as [|b c]; cbn in *; auto. lia.
Qed.
Lemma sdiv_eval r c x : peval c x = (peval c r + (x - r) * peval (sdiv r c) x)%F.
Proof.
  induction c as [|a c IH]; [cbn; ring|]. destruct c as [|b c]; [cbn; ring|].
  change (peval (a :: b :: c) x) with (a + x * peval (b :: c) x)%F.
  change (peval (a :: b :: c) r) with (a + r * peval (b :: c) r)%F.
  change (peval (sdiv r (a :: b :: c)) x) with (peval (b :: c) r + x * peval (sdiv r (b :: c)) x)%F.
  rewrite IH. ring.
Qed.

Lemma peval_roots n : forall (c xs : list Fp) x, length c <= n -> length xs = n -> NoDup xs ->
  (forall r, In r xs -> peval c r = F0) -> peval c x = F0.
Proof.
  induction n as [|n IH]; intros c xs x Hc Hx HN HR.
  - destruct c; [reflexivity|cbn in Hc; lia].
  - destruct xs as [|r xs]; [discriminate|]. cbn in Hx. inversion HN as [|? ? Hr HN']; subst.
    rewrite (sdiv_eval r), (HR r) by now left.
    enough (peval (sdiv r c) x = F0) as -> by ring.
    apply (IH _ xs); [rewrite sdiv_len; lia|lia|auto|].
    intros r' Hr'. pose proof (HR r' (or_intror Hr')) as E. rewrite (sdiv_eval r), (HR r) in E by now left.
    destruct (F_integral p Hp (r' - r)%F (peval (sdiv r c) r')) as [Z|Z]; auto.
    { rewrite <- E. ring. }
    exfalso. apply Hr. replace r with r'; auto. transitivity ((r' - r) + r)%F; [ring|]. rewrite Z. ring.
Qed.

Fixpoint padd (a b : list Fp) : list Fp :=
  match a, b with x :: a, y :: b => (x + y)%F :: padd a b | [], b => b | a, [] => a end.
Lemma padd_eval (a : list Fp) : forall b x, peval (padd a b) x = (peval a x + peval b x)%F.
Proof. induction a as [|u a IH]; intros [|v b] x; cbn; try ring. rewrite IH. ring. Qed.
Lemma padd_len (a : list Fp) : forall b n, length a <= n -> length b <= n -> length (padd a b) <= n.
Proof.
  induction a as [|u a IH]; intros [|v b] n H1 H2; cbn in *; auto. destruct n; [lia|].
  apply le_n_S, IH; lia.
Qed.
Lemma pscale_eval (k : Fp) a x : peval (map (fun u => k * u)%F a) x = (k * peval a x)%F.
Proof. induction a as [|u a IH]; cbn; [ring|]. rewrite IH. ring. Qed.

Lemma prod_poly (rs : list Fp) : exists c, length c <= S (length rs) /\
  forall x, peval c x = fprod (map (fun r => x - r)%F rs).
Proof.
  induction rs as [|r rs (c & HL & HE)].
  - exists [F1]. cbn. split; auto. intros; ring.
  - exists (padd (F0 :: c) (map (fun u => - r * u)%F c)). split.
    + apply padd_len; cbn; [lia|rewrite map_length; lia].
    + intros x. rewrite padd_eval, pscale_eval. cbn. rewrite HE. ring.
Qed.
Lemma sum_poly n (f : nat -> Fp -> Fp) (l : list nat) :
  (forall i, In i l -> exists c, length c <= n /\ forall x, peval c x = f i x) ->
  exists c, length c <= n /\ forall x, peval c x = fsum (map (fun i => f i x) l).
Proof.
  induction l as [|i l IH]; intros H.
  - exists []. cbn. split; auto. lia.
  - destruct (H i (or_introl eq_refl)) as (c1 & L1 & E1). destruct IH as (c2 & L2 & E2); [intros; apply H; now right|].
    exists (padd c1 c2). split; [now apply padd_len|]. intros x. rewrite padd_eval, E1, E2. reflexivity.
Qed.

Definition others (i : nat) (xs : list Fp) : list Fp := firstn i xs ++ skipn (S i) xs.
(** Sum_i w_i * Prod_{j <> i} (X - x_j) *)
Definition lag (xs ws : list Fp) (X : Fp) : Fp :=
  fsum (map (fun i => nth i ws F0 * fprod (map (fun r => X - r) (others i xs)))%F (seq 0 (length xs))).

Lemma others_len i (xs : list Fp) : i < length xs -> length (others i xs) = length xs - 1.
Proof. intros. unfold others. rewrite app_length, firstn_length, skipn_length. lia. Qed.

Lemma lag_poly (xs ws : list Fp) : exists c, length c <= length xs /\ forall X, peval c X = lag xs ws X.
Proof.
  unfold lag. apply (sum_poly (length xs) (fun i X => nth i ws F0 * fprod (map (fun r => X - r) (others i xs)))%F).
  intros i Hi. apply in_seq in Hi. destruct (prod_poly (others i xs)) as (c & HL & HE).
  exists (map (fun u => nth i ws F0 * u)%F c). split.
  - rewrite map_length. rewrite others_len in HL by lia. lia.
  - intros x. now rewrite pscale_eval, HE.
Qed.

Lemma fprod_zero (l : list Fp) : In F0 l -> fprod l = F0.
Proof. induction l as [|a l IH]; cbn; [tauto|]. intros [->|H]; [|rewrite IH by auto]; ring. Qed.
Lemma fprod_app (l l' : list Fp) : fprod (l ++ l') = (fprod l * fprod l')%F.
Proof. induction l as [|a l IH]; cbn; [ring|]. rewrite IH. ring. Qed.
Lemma fsum_zero {A} (f : A -> Fp) l : (forall i, In i l -> f i = F0) -> fsum (map f l) = F0.
Proof.
  induction l as [|a l IH]; intros H; cbn; auto. rewrite (H a (or_introl eq_refl)), IH by (intros; apply H; now right). ring.
Qed.
Lemma fsum_single (f : nat -> Fp) k n : k < n -> (forall i, i < n -> i <> k -> f i = F0) -> fsum (map f (seq 0 n)) = f k.
Proof.
  intros Hk H. replace n with (k + (1 + (n - k - 1))) by lia. rewrite !seq_app, !map_app. cbn.
  assert (A : forall l l' : list Fp, fsum (l ++ l') = (fsum l + fsum l')%F).
  { induction l as [|a l IH]; intros; cbn; [ring|]. rewrite IH. ring. }
  rewrite A. cbn. rewrite (fsum_zero f (seq 0 k)), (fsum_zero f (seq (k + 1) _)); [ring| |];
    intros i Hi; apply in_seq in Hi; apply H; lia.
Qed.
Lemma others_in i k (xs : list Fp) : k < length xs -> i <> k -> In (nth k xs F0) (others i xs).
Proof.
  intros Hk Hik. unfold others. apply in_or_app. destruct (Nat.lt_ge_cases k i) as [H|H].
  - left. replace (nth k xs F0) with (nth k (firstn i xs) F0).
    + apply nth_In. rewrite firstn_length. lia.
    + rewrite <- (firstn_skipn i xs) at 2. rewrite app_nth1; auto. rewrite firstn_length. lia.
  - right. replace (nth k xs F0) with (nth (k - S i) (skipn (S i) xs) F0).
    + apply nth_In. rewrite skipn_length. lia.
    + rewrite <- (firstn_skipn (S i) xs) at 2. rewrite app_nth2; rewrite firstn_length; [f_equal|]; lia.
Qed.
Lemma others_split i (xs : list Fp) X : i < length xs ->
  fprod (map (fun r => X - r)%F xs) = ((X - nth i xs F0) * fprod (map (fun r => X - r) (others i xs)))%F.
Proof.
  intros Hi. assert (E : xs = firstn i xs ++ nth i xs F0 :: skipn (S i) xs).
  { rewrite <- (firstn_skipn i xs) at 1. f_equal. apply skipn_nth. now apply nth_error_nth'. }
  unfold others. rewrite E at 1. rewrite !map_app, !fprod_app. cbn [map fprod]. ring.
Qed.
Lemma nodup_of_denoms (xs : list Fp) :
  (forall i, i < length xs -> fprod (map (fun r => nth i xs F0 - r)%F (others i xs)) <> F0) -> NoDup xs.
Proof.
  intros H. apply (NoDup_nth xs F0). intros i j Hi Hj E. destruct (Nat.eq_dec i j) as [|N]; auto. exfalso.
  apply (H i Hi). apply fprod_zero. apply in_map_iff. exists (nth j xs F0). split.
  - rewrite E. ring.
  - apply others_in; auto.
Qed.
Lemma fprod_nonzero (l : list Fp) : ~ In F0 l -> fprod l <> F0.
Proof.
  induction l as [|a l IH]; cbn; intros H E.
  - now apply F1_neq_0 in E.
  - apply F_integral in E as [E|E]; auto. apply IH; auto.
Qed.
Lemma denom_of_nodup (xs : list Fp) i : NoDup xs -> i < length xs ->
  fprod (map (fun r => nth i xs F0 - r)%F (others i xs)) <> F0.
Proof.
  intros HN Hi. apply fprod_nonzero. intros H. apply in_map_iff in H as (r & E & HI).
  assert (Er : nth i xs F0 = r) by (transitivity ((nth i xs F0 - r) + r)%F; [ring|rewrite E; ring]). subst r.
  assert (HS : xs = firstn i xs ++ nth i xs F0 :: skipn (S i) xs).
  { rewrite <- (firstn_skipn i xs) at 1. f_equal. apply skipn_nth. now apply nth_error_nth'. }
  rewrite HS in HN. apply NoDup_remove_2 in HN. now apply HN.
Qed.

(** the algebra behind the circuit *)
Lemma lagrange_main (xs ys qs : list Fp) (x : Fp) : length ys = length xs -> length qs = length xs ->
  (forall i, i < length xs ->
     ((x - nth i xs F0) * fprod (map (fun r => nth i xs F0 - r) (others i xs)))%F <> F0 /\
     (nth i qs F0 * ((x - nth i xs F0) * fprod (map (fun r => nth i xs F0 - r) (others i xs))))%F = nth i ys F0) ->
  NoDup xs /\ ~ In x xs /\
  let out := (fsum qs * fprod (map (fun r => x - r)%F xs))%F in
  (exists c, length c <= length xs /\ map (peval c) xs = ys /\ peval c x = out) /\
  (forall c, length c <= length xs -> map (peval c) xs = ys -> peval c x = out).
Proof.
  intros Ly Lq H.
  assert (HN : NoDup xs).
  { apply nodup_of_denoms. intros i Hi E. apply (proj1 (H i Hi)). rewrite E. ring. }
  split; auto. split.
  { intros HI. destruct (In_nth _ _ F0 HI) as (i & Hi & E). apply (proj1 (H i Hi)). rewrite E. ring. }
  intros out.
  set (ws := map (fun i => nth i qs F0 * (x - nth i xs F0))%F (seq 0 (length xs))).
  assert (Hw : forall i, i < length xs -> nth i ws F0 = (nth i qs F0 * (x - nth i xs F0))%F).
  { intros i Hi. apply nth_error_nth. unfold ws. rewrite nth_error_map.
    rewrite (nth_error_nth' _ 0) by now rewrite seq_length. rewrite seq_nth by auto. reflexivity. }
  assert (Hk : forall k, k < length xs -> lag xs ws (nth k xs F0) = nth k ys F0).
  { intros k Hk. unfold lag. rewrite (fsum_single _ k); [| exact Hk |].
    2: { intros i Hi Hik. rewrite (fprod_zero (map (fun r => nth k xs F0 - r)%F (others i xs))); [ring|].
         apply in_map_iff. exists (nth k xs F0). split; [ring|]. now apply others_in. }
    cbn beta. rewrite Hw by auto. rewrite <- (proj2 (H k Hk)). ring. }
  assert (Ho : lag xs ws x = out).
  { unfold lag, out. rewrite map_ext_in with (g := fun i => (nth i qs F0 * fprod (map (fun r => x - r) xs))%F).
    - transitivity (fsum (map (fun i => nth i qs F0) (seq 0 (length xs))) * fprod (map (fun r => x - r) xs))%F.
      + generalize (fprod (map (fun r => x - r)%F xs)). intros u. clear. induction (seq 0 (length xs)) as [|a l IH]; cbn; [ring|].
        rewrite IH. ring.
      + f_equal. f_equal. rewrite <- Lq. clear. induction qs as [|q qs IH]; cbn; auto. f_equal.
        rewrite <- seq_shift, map_map. exact IH.
    - intros i Hi. apply in_seq in Hi. rewrite Hw by lia. rewrite (others_split i xs x) by lia. ring. }
  destruct (lag_poly xs ws) as (c0 & L0 & E0).
  assert (Hi0 : map (peval c0) xs = ys).
  { apply nth_ext with (d := F0) (d' := F0); [now rewrite map_length|]. intros k Hk'. rewrite map_length in Hk'.
    erewrite nth_error_nth; [|rewrite nth_error_map, (nth_error_nth' _ F0) by auto; reflexivity]. rewrite E0. auto. }
  split.
  - exists c0. split; auto. split; auto. now rewrite E0.
  - intros c Lc Hc. rewrite <- Ho, <- E0.
    assert (Z : peval (padd c (map (fun u => (- (1)) * u)%F c0)) x = F0).
    { apply (peval_roots (length xs)) with (xs := xs); auto.
      - apply padd_len; auto. now rewrite map_length.
      - intros r Hr. rewrite padd_eval, pscale_eval. destruct (In_nth _ _ F0 Hr) as (k & Hk' & <-).
        assert (E1 : peval c (nth k xs F0) = nth k ys F0).
        { rewrite <- Hc. symmetry. apply nth_error_nth. rewrite nth_error_map, (nth_error_nth' _ F0) by auto. reflexivity. }
        rewrite E1, E0, Hk by auto. ring. }
    rewrite padd_eval, pscale_eval in Z. transitivity ((peval c x + (- (1)) * peval c0 x) + peval c0 x)%F; [ring|].
    rewrite Z. ring.
Qed.
End Poly.

(** ** the circuit *)
Section Lagrange.
Context {p : positive} (Hp : prime (Z.pos p)).
Notation Fp := (F p).
Variable lb : nat.
Notation sound := (sound lb).
Notation comp := (comp lb).
Add Ring Fring2 : (F_ring p) (morphism (F_morph p), constants [Fcst]).

(** filtering out index [i] *)
Lemma filter_others {A} (f : A -> Fp) i (l : list A) : forall k, i < length l ->
  map (fun jc => f (snd jc)) (filter (fun jc => negb (Nat.eqb (k + i) (fst jc))) (combine (seq k (length l)) l)) = others i (map f l).
Proof.
  revert i. induction l as [|a l IH]; intros i k Hi; [cbn in Hi; lia|].
  cbn [length seq combine filter fst]. destruct i as [|i].
  - rewrite Nat.add_0_r, Nat.eqb_refl. cbn [negb]. unfold others. cbn [firstn skipn app map].
    clear IH Hi. assert (HG : forall m, k < m -> map (fun jc => f (snd jc)) (filter (fun jc : nat * A => negb (Nat.eqb k (fst jc))) (combine (seq m (length l)) l)) = map f l).
    { induction l as [|b l IH]; intros m Hm; cbn; auto. destruct (Nat.eqb_spec k m); [lia|]. cbn. f_equal. apply IH. lia. }
    apply HG. lia.
  - destruct (Nat.eqb_spec (k + S i) k); [lia|]. cbn [negb map snd]. unfold others. cbn [firstn map skipn app]. f_equal.
    cbn in Hi. replace (k + S i) with (S k + i) by lia. apply (IH i (S k)). lia.
Qed.

Definition cmul (u : Fp) (l : list Fp) : Fp := (u * fprod l)%F.

Lemma lag_denom_sound (coords : list (AV p * AV p)) i (ci d0 : AV p) : i < length coords ->
  sound (lag_denom coords i ci d0) (fun _ => True)
   (fun sg o => avs sg o = (avs sg d0 * fprod (map (fun r => avs sg ci - r) (others i (map (fun c => avs sg (fst c)) coords))))%F).
Proof.
  intros Hi. unfold lag_denom. eapply sound_weaken.
  - apply (sound_foldM lb _ (fun _ _ => True) (fun done sg o =>
      avs sg o = (avs sg d0 * fprod (map (fun jc => avs sg ci - avs sg (fst (snd jc))) (filter (fun jc => negb (Nat.eqb i (fst jc))) done)))%F)); auto.
    intros done [j [xj yj]] rest d _ _. cbn [fst snd]. rewrite filter_app. cbn [filter fst].
    destruct (Nat.eqb i j); cbn [negb].
    + apply sound_ret; auto. intros sg. now rewrite app_nil_r.
    + sb (@sub_pin p) as s1 _. sl (@mul_pin p) as sg r. intros _ H0 H1 H2. rewrite H0, H1, H2, map_app, fprod_app. cbn [map snd fst fprod]. ring.
  - auto.
  - intros sg o _ H. rewrite H by (cbn; ring). do 2 f_equal.
    rewrite <- (filter_others (fun c => avs sg (fst c)) i coords 0 Hi). rewrite map_map. reflexivity.
Qed.

Definition dvals (sg : cell -> Fp) (coords : list (AV p * AV p)) (x : AV p) i : Fp :=
  let xs := map (fun c => avs sg (fst c)) coords in
  ((avs sg x - nth i xs F0) * fprod (map (fun r => nth i xs F0 - r) (others i xs)))%F.

Definition lag_inv (coords : list (AV p * AV p)) (x : AV p) (done : list (nat * (AV p * AV p))) (sg : cell -> Fp) (ev : option (AV p)) : Prop :=
  exists qs : list Fp, length qs = length done /\ (forall i, i < length done -> dvals sg coords x i <> F0 /\   (nth i qs F0 * dvals sg coords x i)%F = nth i (map (fun c : AV p * AV p => avs sg (snd c)) coords) (F0 : Fp)) /\ match ev with None => fsum qs = F0 | Some e => avs sg e = fsum qs end.

Lemma lag_step_sound coords x done i xi yi rest ev :
  combine (seq 0 (length coords)) coords = done ++ (i, (xi, yi)) :: rest ->
  (done = [] <-> ev = None) ->
  sound (lag_step coords x ev (i, (xi, yi))) (fun r => r <> None)
    (fun sg r => lag_inv coords x done sg ev -> lag_inv coords x (done ++ [(i, (xi, yi))]) sg r).
Proof.
  intros Hc He.
  assert (HL : length done + S (length rest) = length coords).
  { apply (f_equal (@length _)) in Hc. rewrite combine_length, seq_length, app_length in Hc. cbn in Hc. lia. }
  assert (Hn : nth_error (combine (seq 0 (length coords)) coords) (length done) = Some (i, (xi, yi))).
  { rewrite Hc, nth_error_app2, Nat.sub_diag by lia. reflexivity. }
  assert (Hi : i = length done /\ nth_error coords (length done) = Some (xi, yi)).
  { assert (G : forall (l : list (AV p * AV p)) k m, nth_error (combine (seq k (length l)) l) m = Some (i, (xi, yi)) -> i = k + m /\ nth_error l m = Some (xi, yi)).
    { induction l as [|a l IH]; intros k m E; [destruct m; discriminate|]. destruct m as [|m]; cbn in *.
      - injection E as <- ->. split; auto; lia.
      - apply IH in E as [-> ?]. split; auto; lia. }
    apply G in Hn. exact Hn. }
  destruct Hi as [-> Hx].
  unfold lag_step. sb (@sub_pin p) as a _. eapply sound_bind; [apply lag_denom_sound; lia|]. intros d _.
  eapply sound_bind; [apply is_zero_sound; auto|]. intros z _.
  eapply sound_bind; [apply sound_assert_is_const|]. intros [] _.
  sb (@div_unsafe_pin p) as a0 _.
  assert (HF : forall sg, avs sg a = (avs sg x - avs sg xi)%F ->
     avs sg d = (avs sg a * fprod (map (fun r => avs sg xi - r) (others (length done) (map (fun c => avs sg (fst c)) coords))))%F ->
     avs sg z = fbool (Fis0 (avs sg d)) -> avs sg z = F0 -> (avs sg a0 * avs sg d)%F = avs sg yi ->
     lag_inv coords x done sg ev ->
     exists qs, length qs = S (length done) /\ (forall i, i < S (length done) -> dvals sg coords x i <> F0 /\   (nth i qs F0 * dvals sg coords x i)%F = nth i (map (fun c : AV p * AV p => avs sg (snd c)) coords) (F0 : Fp)) /\  match ev with None => fsum qs = avs sg a0 | Some e => (avs sg e + avs sg a0)%F = fsum qs end).
  { intros sg E1 E2 E3 E4 E5 (qs & L & HI & HE). exists (qs ++ [avs sg a0]). split; [rewrite app_length; cbn; lia|].
    assert (ED : dvals sg coords x (length done) = avs sg d).
    { unfold dvals. rewrite E2, E1. 
      rewrite (nth_error_nth (map (fun c => avs sg (fst c)) coords) (length done) F0 (x:=avs sg xi)); [reflexivity|].
      now rewrite nth_error_map, Hx. }
    split.
    - intros j Hj. destruct (Nat.eq_dec j (length done)) as [->|N].
      + rewrite app_nth2, L, Nat.sub_diag by lia. cbn [nth]. rewrite ED. split.
        * rewrite E4 in E3. destruct (Fis0 (avs sg d)) eqn:EZ; cbn in E3; [symmetry in E3; now apply F1_neq_0 in E3|].
          now apply Fis0_false.
        * rewrite E5. symmetry. apply nth_error_nth. now rewrite nth_error_map, Hx.
      + rewrite app_nth1 by lia. apply HI. lia.
    - assert (A : fsum (qs ++ [avs sg a0]) = (fsum qs + avs sg a0)%F).
      { clear. induction qs as [|q qs IH]; cbn; [ring|]. rewrite IH. ring. }
      rewrite A. destruct ev; [rewrite HE; reflexivity|rewrite HE; ring]. }
  destruct ev as [e|].
  - sb (@add_pin p) as e1 _. apply sound_ret; [congruence|]. intros sg H1 H2 H3 H4 H5 H6 H7.
    destruct (HF sg H6 H5 H4 H3 H2 H7) as (qs & L & HI & HE). exists qs. rewrite app_length, Nat.add_comm. cbn [length Nat.add].
    split; auto. split; auto. now rewrite H1.
  - apply sound_ret; [congruence|]. intros sg H2 H3 H4 H5 H6 H7.
    destruct (HF sg H6 H5 H4 H3 H2 H7) as (qs & L & HI & HE). exists qs. rewrite app_length, Nat.add_comm. cbn [length Nat.add].
    split; auto.
Qed.

Lemma lagrange_sound (coords : list (AV p * AV p)) (x : AV p) : sound (lagrange_and_eval coords x) (fun _ => coords <> [])
  (fun sg o => let xs := map (fun c => avs sg (fst c)) coords in let ys := map (fun c => avs sg (snd c)) coords in
     NoDup xs /\ ~ In (avs sg x) xs /\ avs sg (snd o) = fprod (map (fun r => avs sg x - r)%F xs) /\
     (exists c, length c <= length coords /\ map (peval c) xs = ys /\ peval c (avs sg x) = avs sg (fst o)) /\
     (forall c, length c <= length coords -> map (peval c) xs = ys -> peval c (avs sg x) = avs sg (fst o))).
Proof.
  unfold lagrange_and_eval. destruct coords as [|[x0 y0] rest] eqn:EC; [apply sound_panic|]. rewrite <- EC.
  sb (@sub_pin p) as z0 _.
  eapply sound_bind.
  { apply (sound_foldM lb _ (fun _ _ => True) (fun done sg o =>
      avs sg o = (avs sg z0 * fprod (map (fun c => avs sg x - avs sg (fst c)) done))%F)); auto.
    intros done [xj yj] rs d _ _. cbn [fst snd]. sb (@sub_pin p) as s1 _. sl (@mul_pin p) as sg r. intros _ H0 H1 H2.
    rewrite H0, H1, H2, map_app, fprod_app. cbn [map fst fprod]. ring. }
  cbv beta. intros z _.
  eapply sound_bind.
  { apply (sound_foldM lb _ (fun done ev => done = [] <-> ev = None) (fun done sg o => lag_inv coords x done sg o)); [split; auto|].
    intros done [i [xi yi]] rs ev E HP. eapply sound_weaken; [eapply lag_step_sound; eauto|..]; cbv beta; auto.
    intros r Hr. split; intros HH; [now apply app_eq_nil in HH as [_ HH]|contradiction]. }
  cbv beta. intros ev Hev. apply sound_lift_bind. intros e He.
  sb (@mul_pin p) as o _. apply sound_ret; [congruence|]. intros sg E1 E2 E3 E4. cbn [fst snd].
  destruct E2 as (qs & L & HI & HE).
  { exists []. cbn. split; auto. split; auto. lia. }
  rewrite combine_length, seq_length, Nat.min_id in *. subst ev.
  set (xs := map (fun c => avs sg (fst c)) coords) in *. set (ys := map (fun c => avs sg (snd c)) coords).
  assert (Lx : length xs = length coords) by (unfold xs; now rewrite map_length).
  assert (Ly : length ys = length xs) by (unfold ys, xs; now rewrite !map_length).
  destruct (lagrange_main Hp xs ys qs (avs sg x) Ly ltac:(lia)) as (R1 & R2 & R3).
  { intros i Hi. rewrite Lx in Hi. exact (HI i Hi). }
  assert (EZ : avs sg z = fprod (map (fun r => avs sg x - r)%F xs)).
  { rewrite E3 by (cbn; ring). rewrite E4. unfold xs. rewrite EC. cbn [map fst fprod]. now rewrite map_map. }
  split; auto. split; auto. split; auto. rewrite E1, HE, EZ. rewrite <- Lx. exact R3.
Qed.

(** completeness *)
Definition cok (rho : cell -> Fp) (c : AV p * AV p) : Prop := av_ok rho (fst c) /\ av_ok rho (snd c).
Definition chv (c : AV p * AV p) (v : Fp * Fp) : Prop := hv (fst c) (fst v) /\ hv (snd c) (snd v).

Lemma comp_ext_H {A} (H H' : (cell -> Fp) -> Prop) (m : M p A) P Q :
  (forall rho, H' rho -> H rho) -> comp H m P Q -> comp H' m P Q.
Proof. intros HH C. eapply comp_weaken; [exact C|auto|auto|auto]. Qed.

Lemma lag_denom_comp coords vs i (ci d0 : AV p) xi vd : Forall2 chv coords vs -> hv ci xi -> hv d0 vd -> i < length coords ->
  comp (fun rho => Forall (cok rho) coords /\ av_ok rho ci /\ av_ok rho d0) (lag_denom coords i ci d0)
    (fun o => hv o (vd * fprod (map (fun r => xi - r) (others i (map fst vs))))%F) (fun rho o => av_ok rho o).
Proof.
  intros HC Hci Hd0 Hi. unfold lag_denom.
  assert (HG : forall l k d vd (ws : list (Fp * Fp)), Forall2 chv l ws -> hv d vd -> 
    comp (fun rho => Forall (cok rho) l /\ av_ok rho ci /\ av_ok rho d)
     (foldM (fun d jc => if Nat.eqb i (fst jc) then ret d
                     else s <- sub (Existing ci) (Existing (fst (snd jc))) ;; mul (Existing d) (Existing s))
        (combine (seq k (length l)) l) d)
    (fun o => hv o (vd * fprod (map (fun jc => xi - fst (snd jc)) (filter (fun jc => negb (Nat.eqb i (fst jc))) (combine (seq k (length ws)) ws))))%F)
    (fun rho o => av_ok rho o)).
  { clear -Hci. intros l k d vd ws F. revert k d vd. induction F as [|[xa ya] [va wa] l ws [H1 H2] F IH]; intros k d vd Hd; cbn [length seq combine foldM filter fst snd].
    - apply comp_ret; [|tauto]. destruct Hd. split; auto. cbn. rewrite H. f_equal. ring.
    - cbn [fst snd] in *. eapply comp_bind with (H1 := fun rho => av_ok rho ci /\ av_ok rho d /\ av_ok rho xa)
        (P1 := fun o => hv o (if negb (Nat.eqb i k) then vd * (xi - va) else vd)%F) (Q1 := fun rho o => av_ok rho o).
      + destruct (Nat.eqb i k); cbn [negb].
        * apply comp_ret; [auto|tauto].
        * cb (@sub_comp p) as s Hs.
          cl (@mul_comp p).
      + intros rho (A & B & C). inversion A; subst. unfold cok in *. cbn in *. tauto.
      + intros d' Hd'. eapply comp_weaken; [apply (IH (S k) d' _ Hd')| | |auto].
        * cbn. intros rho ((A & B & C) & D). inversion A; auto.
        * cbn. intros o. destruct (negb (Nat.eqb i k)); [|auto]. cbn [map snd fst fprod]. intros [E1 E2]. split; auto. rewrite E1. f_equal. ring. }
  eapply comp_weaken; [apply (HG coords 0 d0 vd vs HC Hd0)|auto|cbv beta|auto].
  intros o Ho. assert (L : length coords = length vs) by (eapply Forall2_len; eauto).
  rewrite <- (filter_others (@fst Fp Fp) i vs 0) by lia. rewrite map_map. exact Ho.
Qed.

Lemma lagrange_comp (coords : list (AV p * AV p)) vs (x : AV p) vx : Forall2 chv coords vs -> hv x vx ->
  coords <> [] -> NoDup (map fst vs) -> ~ In vx (map fst vs) ->
  comp (fun rho => Forall (cok rho) coords /\ av_ok rho x) (lagrange_and_eval coords x)
    (fun o => (forall c, length c <= length vs -> map (peval c) (map fst vs) = map snd vs -> hv (fst o) (peval c vx)) /\
              hv (snd o) (fprod (map (fun r => vx - r)%F (map fst vs))))
    (fun rho o => av_ok rho (fst o) /\ av_ok rho (snd o)).
Proof.
  intros HC Hx HNE HN HI. unfold lagrange_and_eval. destruct coords as [|[x0 y0] rest] eqn:EC; [contradiction|]. rewrite <- EC in *.
  destruct vs as [|[v0 w0] vrest] eqn:EV; [rewrite EC in HC; inversion HC|]. rewrite <- EV in *.
  assert (HC' := HC). rewrite EC, EV in HC'. inversion HC' as [|? ? ? ? [H1 H2] HR]; subst x1 y l l'. cbn [fst snd] in *.
  assert (L : length coords = length vs) by (eapply Forall2_len; eauto).
  eapply comp_bind; [eapply (@sub_comp p); cargs| |].
  { intros rho [A B]. rewrite EC in A. inversion A; subst. unfold cok, qok2 in *. cbn in *. tauto. }
  intros z0 Hz0.
  eapply comp_bind with (H1 := fun rho => (Forall (cok rho) rest /\ av_ok rho x) /\ av_ok rho z0)
     (P1 := fun o => hv o (fprod (map (fun r => vx - r)%F (map fst vs)))) (Q1 := fun rho o => av_ok rho o).
  { clear -HR Hx Hz0 EV. subst vs. cbn [map fst fprod].
    assert (HG : forall z vz, hv z vz -> comp (fun rho => (Forall (cok rho) rest /\ av_ok rho x) /\ av_ok rho z)
       (foldM (fun z c => s <- sub (Existing x) (Existing (fst c)) ;; mul (Existing z) (Existing s)) rest z)
       (fun o => hv o (vz * fprod (map (fun r => vx - r) (map fst vrest)))%F) (fun rho o => av_ok rho o)).
    { clear z0 Hz0. induction HR as [|[xa ya] [va wa] l ws [H1 H2] F IH]; intros z vz Hz; cbn [foldM map fst fprod] in *.
      - apply comp_ret; [|tauto]. destruct Hz. split; auto. rewrite H. f_equal. ring.
      - eapply comp_bind with (H1 := fun rho => av_ok rho x /\ av_ok rho z /\ av_ok rho xa) (P1 := fun o => hv o (vz * (vx - va))%F) (Q1 := fun rho o => av_ok rho o).
        + cb (@sub_comp p) as s Hs.
          cl (@mul_comp p).
        + intros rho ((A & B) & C). inversion A; subst. unfold cok in *. cbn in *. tauto.
        + intros d' Hd'. eapply comp_weaken; [apply (IH d' _ Hd')| | |auto].
          * cbn. intros rho (((A & B) & C) & D). inversion A; auto.
          * cbn. intros o [E1 E2]. split; auto. rewrite E1. f_equal. ring. }
    apply (HG z0 _ Hz0). }
  { intros rho ((A & B) & C). rewrite EC in A. inversion A; auto. }
  intros z Hz.
  set (xs := map fst vs) in *. set (ys := map snd vs) in *.
  set (dn := fun i => ((vx - nth i xs F0) * fprod (map (fun r => nth i xs F0 - r) (others i xs)))%F).
  set (qs := map (fun i => Fdiv (nth i ys F0) (dn i)) (seq 0 (length vs))).
  assert (Lx : length xs = length vs) by (unfold xs; now rewrite map_length).
  assert (Ly : length ys = length vs) by (unfold ys; now rewrite map_length).
  assert (Hdn : forall i, i < length vs -> dn i <> F0).
  { intros i Hi E. unfold dn in E. apply (F_integral p Hp) in E as [E|E].
    - apply HI. replace vx with (nth i xs F0); [apply nth_In; lia|].
      transitivity ((vx - nth i xs F0) + nth i xs F0)%F; [rewrite E; ring|ring].
    - revert E. apply (denom_of_nodup Hp); auto. lia. }
  assert (Hq : forall i, i < length vs -> nth i qs F0 = Fdiv (nth i ys F0) (dn i)).
  { intros i Hi. apply nth_error_nth. unfold qs. rewrite nth_error_map, (nth_error_nth' _ 0) by now rewrite seq_length.
    now rewrite seq_nth by auto. }
  eapply comp_bind with (H1 := fun rho => (Forall (cok rho) coords /\ av_ok rho x) /\ True)
     (P1 := fun ev => exists e, ev = Some e /\ hv e (fsum qs)) (Q1 := fun rho ev => match ev with Some e => av_ok rho e | None => True end).
  { eapply comp_weaken.
    - apply (comp_foldM lb _ (fun rho => Forall (cok rho) coords /\ av_ok rho x)
        (fun done ev => match ev with None => done = [] | Some e => done <> [] /\ hv e (fsum (firstn (length done) qs)) end)
        (fun done rho ev => match ev with Some e => av_ok rho e | None => True end)).
      + reflexivity.
      + intros done [i [xi yi]] rs ev E HP.
        assert (Hn : nth_error (combine (seq 0 (length coords)) coords) (length done) = Some (i, (xi, yi))).
        { rewrite E, nth_error_app2, Nat.sub_diag by lia. reflexivity. }
        assert (Hi : i = length done /\ nth_error coords (length done) = Some (xi, yi)).
        { assert (G : forall (l : list (AV p * AV p)) k m, nth_error (combine (seq k (length l)) l) m = Some (i, (xi, yi)) -> i = k + m /\ nth_error l m = Some (xi, yi)).
          { clear. induction l as [|a l IH]; intros k m E; [destruct m; discriminate|]. destruct m as [|m]; cbn in *.
            - injection E as <- ->. split; auto; lia.
            - apply IH in E as [-> ?]. split; auto; lia. }
          apply G in Hn. exact Hn. }
        destruct Hi as [-> Hxy]. set (i := length done) in *.
        assert (Hil : i < length coords) by (apply nth_error_Some; congruence).
        destruct (nth_error vs i) as [[vi wi]|] eqn:Evi; [|apply nth_error_None in Evi; lia].
        assert (Hcv : chv (xi, yi) (vi, wi)).
        { exact (Forall2_nth_err _ _ _ HC _ _ _ Hxy Evi). }
        destruct Hcv as [Hxi Hyi]. cbn [fst snd] in Hxi, Hyi.
        assert (Exi : nth i xs F0 = vi) by (apply nth_error_nth; unfold xs; now rewrite nth_error_map, Evi).
        assert (Eyi : nth i ys F0 = wi) by (apply nth_error_nth; unfold ys; now rewrite nth_error_map, Evi).
        assert (HQ : firstn (S i) qs = firstn i qs ++ [Fdiv wi (dn i)]).
        { rewrite <- Eyi, <- Hq by lia. assert (Lq : i < length qs) by (unfold qs; rewrite map_length, seq_length; lia).
          clearbody i. now apply firstn_S_nth. }
        assert (HS : fsum (firstn (S i) qs) = (fsum (firstn i qs) + Fdiv wi (dn i))%F).
        { rewrite HQ. generalize (firstn i qs). intros l. induction l as [|q l IH]; cbn; [ring|]. rewrite IH. ring. }
        assert (Hin : forall rho, Forall (cok rho) coords -> av_ok rho xi /\ av_ok rho yi).
        { intros rho HF. rewrite Forall_forall in HF. apply (HF (xi, yi)). eapply nth_error_In; eauto. }
        unfold lag_step.
        eapply comp_bind; [eapply (@sub_comp p); cargs|intros rho [[A B] _]; split; cbn; auto; apply Hin; auto|]. intros d0 Hd0. cbv beta in Hd0.
        eapply comp_bind; [apply (lag_denom_comp coords vs i xi d0); eauto| |].
        { intros rho [[[A B] _] D]. split; auto. split; auto. apply Hin; auto. }
        intros d Hd. cbv beta in Hd. fold xs in Hd. replace ((vx - vi) * fprod (map (fun r => vi - r) (others i xs)))%F with (dn i) in Hd by (unfold dn; now rewrite Exi).
        eapply comp_bind; [apply is_zero_comp; [auto..|exact Hd]|ctau|]. intros z1 Hz1. cbv beta in Hz1.
        rewrite (proj2 (Fis0_false _ _) (Hdn i ltac:(lia))) in Hz1. cbn [fbool] in Hz1.
        eapply comp_bind; [apply (comp_assert_is_const lb z1 _ Hz1)|ctau|]. intros [] _.
        eapply comp_bind; [apply div_unsafe_comp; [auto..|apply qh_existing; exact Hyi|apply qh_existing; exact Hd|apply Hdn; lia]| |].
        { intros rho H. cbv beta in H. split; cbn; [apply Hin|]; tauto. }
        intros qt Hqt. cbv beta in Hqt. destruct ev as [e|].
        * destruct HP as [HP1 HP2]. cb (@add_comp p) as e' He'.
          apply comp_ret; [|cbv beta; tauto]. split; [intros HH; now apply app_eq_nil in HH as [_ HH]|].
          rewrite app_length, Nat.add_comm. cbn [length Nat.add]. fold i. rewrite HS. exact He'.
        * subst done. apply comp_ret; [|cbv beta; tauto]. split; [discriminate|]. cbn [app length]. cbn [length] in i.
          change 1 with (S i). rewrite HS. destruct Hqt as [E1 E2]. split; auto. rewrite E1. cbn. f_equal. ring.
    - cbn. tauto.
    - cbv beta. rewrite combine_length, seq_length, Nat.min_id. intros [e|] HP.
      + exists e. split; auto. rewrite firstn_all2 in HP; [tauto|]. unfold qs. rewrite map_length, seq_length. lia.
      + exfalso. apply (f_equal (@length _)) in HP. rewrite combine_length, seq_length, EC in HP. cbn in HP. discriminate.
    - cbn. tauto. }
  { cbn. tauto. }
  intros ev (e & -> & He). eapply comp_lift_bind; [reflexivity|].
  cb (@mul_comp p) as o Ho.
  apply comp_ret; [|ctau]. cbn [fst snd]. split; auto. intros c Lc Hc.
  destruct (lagrange_main Hp xs ys qs vx) as (_ & _ & _ & R).
  - lia.
  - unfold qs. rewrite map_length, seq_length. lia.
  - intros i Hi. rewrite Lx in Hi. fold (dn i). split; [now apply Hdn|]. rewrite Hq by auto. unfold Fdiv.
    transitivity (nth i ys F0 * (Finv (dn i) * dn i))%F; [ring|]. rewrite (Finv_l p) by auto. ring.
  - rewrite (R c); auto. lia.
Qed.
End Lagrange.
