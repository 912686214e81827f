(** Property theorems: the rest of C05 (completeness) and C09 (Lagrange interpolation). See PropsGate.v for the reading guide. *)
From Coq Require Import ZArith Znumtheory Lia List Bool.
From Verif Require Import Field Spec Context ContextProofs Utils Logic Gate GateProofs ChainProofs IPProofs BitProofs PowProofs SatCheck PropsGate
  IPComp LagrangeProofs.
Import ListNotations.
Local Open Scope Z_scope.
Local Open Scope monad_scope.

Section C05.
Context (p : positive) (lb : nat).
Notation okl := (fun rho o => Forall (av_ok rho) o).
Theorem C05_running_complete : forall (a b : list (qcell p)) (xs ys : list (F p)),
  Forall2 qh a xs -> Forall2 qh b ys -> length a = length b ->
  let H := fun rho => Forall (q_ok rho) a /\ Forall (q_ok rho) b in
  comp lb H (inner_product_with_sums a b)
    (fun o => Forall2 hv o (running p (length xs) (fun k => dot (firstn k xs) (firstn k ys)))) okl /\
  (a <> [] -> comp lb H (inner_product_left_last a b) (fun o => hv (fst o) (dot xs ys) /\ hv (snd o) (last xs F0))
    (fun rho o => av_ok rho (fst o) /\ av_ok rho (snd o))) /\
  (a <> [] -> comp lb (fun rho => Forall (q_ok rho) a) (partial_sums a)
    (fun o => Forall2 hv o (running p (length xs) (fun k => fsum (firstn k xs)))) okl).
Proof.
  intros a b xs ys Ha Hb HL H. split; [now apply inner_product_with_sums_comp|].
  split; [intros; now apply inner_product_left_last_comp|].
  intros HN. eapply comp_weaken; [apply (partial_sums_comp lb _ _ Ha)|auto| |auto].
  intros o Ho. destruct xs; [inversion Ha; subst; contradiction|exact Ho].
Qed.
Theorem C05_accumulated_product_complete : forall (a b : list (qcell p)) (xs : list (F p)) (b0 : F p) (ys : list (F p)),
  Forall2 qh a xs -> Forall2 qh b (b0 :: ys) -> length b = S (length a) ->
  comp lb (fun rho => Forall (q_ok rho) a /\ Forall (q_ok rho) b) (accumulated_product a b)
    (fun o => Forall2 hv o (b0 :: accum p b0 xs ys)) okl.
Proof.
  intros a b xs b0 ys Ha Hb HL. eapply comp_weaken; [apply (accumulated_product_comp lb a b xs b0 ys Ha Hb HL)|auto| |auto].
  intros o Ho. replace (accum p b0 xs ys) with (horner b0 (combine xs ys)); auto.
  clear. revert b0 ys. induction xs as [|x xs IH]; intros b0 [|y ys]; cbn; auto. now rewrite IH.
Qed.
Theorem C05_sum_products_complete : forall (values : list (F p * qcell p * qcell p)) (var : qcell p) (ts : list (F p * F p * F p)) (v : F p),
  qh var v -> Forall2 (fun q t => fst (fst t) = fst (fst q) /\ qh (snd (fst q)) (snd (fst t)) /\ qh (snd q) (snd t)) values ts ->
  comp lb (fun rho => q_ok rho var /\ Forall (fun q => q_ok rho (snd (fst q)) /\ q_ok rho (snd q)) values)
    (sum_products_with_coeff_and_var values var)
    (fun o => hv o (v + fsum (map (fun t => fst (fst t) * snd (fst t) * snd t) ts))%F) (fun rho o => av_ok rho o).
Proof. intros values var ts v Hv HF. now apply sum_products_comp. Qed.
End C05.
Print Assumptions C05_running_complete.
Print Assumptions C05_accumulated_product_complete.
Print Assumptions C05_sum_products_complete.

(** ** C09: Lagrange interpolation and evaluation *)
Section C09.
Context (p : positive) (lb : nat) (Hp : prime (Z.pos p)).
(** [c] (coefficients, low to high) is a polynomial of degree < n through the points (x_i, y_i) *)
Definition interpolates (n : nat) (c xs ys : list (F p)) : Prop :=
  (length c <= n)%nat /\ Forall2 (fun x y => peval c x = y) xs ys.
Definition ycoords (sg : cell -> F p) (coords : list (AV p * AV p)) := map (fun c => avs sg (snd c)) coords.
Definition xcoords (sg : cell -> F p) (coords : list (AV p * AV p)) := map (fun c => avs sg (fst c)) coords.

Lemma interp_map n (c xs ys : list (F p)) : interpolates n c xs ys <-> (length c <= n)%nat /\ map (peval c) xs = ys.
Proof.
  unfold interpolates. split; intros [H1 H2]; split; auto.
  - induction H2; cbn; congruence.
  - subst ys. clear H1. induction xs; constructor; auto.
Qed.

(** whatever a prover does: the x_i are pairwise distinct and different from [x], the second output is Prod (x - x_i), an
    interpolating polynomial of degree < n exists and the first output is the value at [x] of any of them *)
Theorem C09_lagrange_sound : forall (coords : list (AV p * AV p)) (x : AV p),
  sound lb (lagrange_and_eval coords x) (fun _ => coords <> []) (fun sg o =>
    NoDup (xcoords sg coords) /\ ~ In (avs sg x) (xcoords sg coords) /\
    avs sg (snd o) = fprod (map (fun r => avs sg x - r)%F (xcoords sg coords)) /\
    (exists c, interpolates (length coords) c (xcoords sg coords) (ycoords sg coords)) /\
    forall c, interpolates (length coords) c (xcoords sg coords) (ycoords sg coords) -> avs sg (fst o) = peval c (avs sg x)).
Proof.
  intros. eapply sound_weaken; [now apply lagrange_sound|auto|].
  intros sg o _ (H1 & H2 & H3 & (c & H4 & H5 & _) & H6). do 3 (split; auto). split.
  - exists c. apply interp_map. auto.
  - intros c' Hc. apply interp_map in Hc as [L E]. symmetry. now apply H6.
Qed.

(** the honest prover succeeds whenever the x_i are distinct and different from x *)
Theorem C09_lagrange_complete : forall (coords : list (AV p * AV p)) (pts : list (F p * F p)) (x : AV p) (vx : F p),
  Forall2 (fun c v => hv (fst c) (fst v) /\ hv (snd c) (snd v)) coords pts -> hv x vx ->
  coords <> [] -> NoDup (map fst pts) -> ~ In vx (map fst pts) ->
  comp lb (fun rho => Forall (fun c => av_ok rho (fst c) /\ av_ok rho (snd c)) coords /\ av_ok rho x) (lagrange_and_eval coords x)
    (fun o => (forall c, interpolates (length pts) c (map fst pts) (map snd pts) -> hv (fst o) (peval c vx)) /\
              hv (snd o) (fprod (map (fun r => vx - r)%F (map fst pts))))
    (fun rho o => av_ok rho (fst o) /\ av_ok rho (snd o)).
Proof.
  intros coords pts x vx HC Hx HN HD HI. eapply comp_weaken; [apply (lagrange_comp Hp lb coords pts x vx HC Hx HN HD HI)|auto| |auto].
  intros o [H1 H2]. split; auto. intros c Hc. apply interp_map in Hc as [L E]. auto.
Qed.
End C09.
Print Assumptions C09_lagrange_sound.
Print Assumptions C09_lagrange_complete.

(** y = 3 + 2 x + x^2 through x = 1, 2, 5, evaluated at 7 modulo 101: 66 and (7-1)(7-2)(7-5) = 60 *)
Definition ex_lag : M 101 (list (AV 101)) :=
  x1 <- load_witness (of_Z 101 1) ;; y1 <- load_witness (of_Z 101 6) ;;
  x2 <- load_witness (of_Z 101 2) ;; y2 <- load_witness (of_Z 101 11) ;;
  x3 <- load_witness (of_Z 101 5) ;; y3 <- load_witness (of_Z 101 38) ;;
  x <- load_witness (of_Z 101 7) ;;
  r <- lagrange_and_eval [(x1, y1); (x2, y2); (x3, y3)] x ;; ret [fst r; snd r].
Example C09_example : run_ok 0 ex_lag (fun l => forallb (fun e => avz (fst e) =? snd e) (combine l [66; 60])) = true.
Proof. vm_compute. reflexivity. Qed.
Example C09_example_hyp : NoDup (map (of_Z 101) [1; 2; 5]) /\ ~ In (of_Z 101 7) (map (of_Z 101) [1; 2; 5]) /\
  interpolates 101 3 (map (of_Z 101) [3; 2; 1]) (map (of_Z 101) [1; 2; 5]) (map (of_Z 101) [6; 11; 38]).
Proof.
  assert (HE : forall x y : F 101, Feqb x y = false -> x <> y) by (intros; now apply Feqb_neq).
  split; [|split].
  - cbn [map]. repeat constructor; cbn [In]; intros H; repeat destruct H as [H|H]; try contradiction; revert H; apply HE; vm_compute; reflexivity.
  - cbn [map In]. intros H; repeat destruct H as [H|H]; try contradiction; revert H; apply HE; vm_compute; reflexivity.
  - split; [cbn; auto|]. repeat constructor; apply Feqb_eq; vm_compute; reflexivity.
Qed.
