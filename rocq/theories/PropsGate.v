(** Property theorems C01-C08 about [GateChip] (statements only; proofs are one [exact]/short derivation each).
    Reading guide: [sound lb m P Q] (Logic.v) says: from every well-formed context (any history), if [m] returns [o] then
    the context is extended only (no constraint lost), [P o] holds and EVERY assignment satisfying all constraints recorded so far
    gives [Q sg o]. [comp lb H m P Q] says: [m] does not panic, and every assignment agreeing with the witness the library computed
    that satisfied the earlier constraints satisfies the new ones too.
    [qsem sg q x]: the argument [q] has value [x] under [sg]; [avs sg o]: value of cell [o] under [sg];
    [hv o v]: the returned cell carries value [v]; [qh q v]: the argument carries the evaluated value [v]. *)
From Coq Require Import ZArith Znumtheory Lia List Bool.
From Verif Require Import Field Spec Context ContextProofs Utils Logic Gate GateProofs ChainProofs IPProofs BitProofs PowProofs SatCheck.
Import ListNotations.
Local Open Scope Z_scope.
Local Open Scope monad_scope.

(** ** C01: field arithmetic is sound *)
Ltac eqv_hv H := match type of H with hv ?o ?v => match goal with |- hv o ?w => replace w with v; [exact H|] end end.
Section C01.
Context (p : positive) (lb : nat).
Implicit Types (a b c : qcell p).
Definition ret1 a (f : F p -> F p) : (cell -> F p) -> AV p -> Prop :=
  fun sg o => exists x, qsem sg a x /\ avs sg o = f x.
Definition ret2 a b (f : F p -> F p -> F p) : (cell -> F p) -> AV p -> Prop :=
  fun sg o => exists x y, qsem sg a x /\ qsem sg b y /\ avs sg o = f x y.
Definition ret3 a b c (f : F p -> F p -> F p -> F p) : (cell -> F p) -> AV p -> Prop :=
  fun sg o => exists x y z, qsem sg a x /\ qsem sg b y /\ qsem sg c z /\ avs sg o = f x y z.
Notation T := (fun _ => True).

Theorem C01_arith_sound : forall a b c : qcell p,
  sound lb (add a b) T (ret2 a b (fun x y => x + y)%F) /\
  sound lb (sub a b) T (ret2 a b (fun x y => x - y)%F) /\
  sound lb (inc a) T (ret1 a (fun x => x + 1)%F) /\
  sound lb (dec a) T (ret1 a (fun x => x - 1)%F) /\
  sound lb (neg a) T (ret1 a (fun x => - x)%F) /\
  sound lb (mul a b) T (ret2 a b (fun x y => x * y)%F) /\
  sound lb (mul_add a b c) T (ret3 a b c (fun x y z => x * y + z)%F) /\
  sound lb (sub_mul a b c) T (ret3 a b c (fun x y z => x - y * z)%F) /\
  sound lb (mul_not a b) T (ret2 a b (fun x y => (1 - x) * y)%F) /\
  sound lb (div_unsafe a b) T (fun sg o => exists x y, qsem sg a x /\ qsem sg b y /\ (avs sg o * y)%F = x).
Proof.
  intros.
  split; [apply add_sound|].
  split; [apply sub_sound|].
  split; [apply inc_sound|].
  split; [apply dec_sound|].
  split; [apply neg_sound|].
  split; [apply mul_sound|].
  split; [apply mul_add_sound|].
  split; [apply sub_mul_sound|].
  split; [apply mul_not_sound|].
  apply div_unsafe_sound.
Qed.

(** ** C02: and complete *)
Notation okv v := (fun o => hv o v).
Notation ok := (fun rho o => av_ok rho o).
Theorem C02_arith_complete : forall (a b c : qcell p) (x y z : F p), qh a x -> qh b y -> qh c z ->
  let H1 := fun rho => q_ok rho a in
  let H2 := fun rho => q_ok rho a /\ q_ok rho b in
  let H3 := fun rho => q_ok rho a /\ q_ok rho b /\ q_ok rho c in
  comp lb H2 (add a b) (okv (x + y)%F) ok /\
  comp lb H2 (sub a b) (okv (x - y)%F) ok /\
  comp lb H1 (inc a) (okv (x + 1)%F) ok /\
  comp lb H1 (dec a) (okv (x - 1)%F) ok /\
  comp lb H1 (neg a) (okv (- x)%F) ok /\
  comp lb H2 (mul a b) (okv (x * y)%F) ok /\
  comp lb H3 (mul_add a b c) (okv (x * y + z)%F) ok /\
  comp lb H3 (sub_mul a b c) (okv (x - y * z)%F) ok /\
  comp lb H2 (mul_not a b) (okv ((1 - x) * y)%F) ok /\
  (prime (Z.pos p) -> y <> F0 -> comp lb H2 (div_unsafe a b) (okv (Fdiv x y)) ok).
Proof.
  intros a b c x y z Ha Hb Hc H1 H2 H3.
  split; [now apply add_comp|].
  split; [now apply sub_comp|].
  split; [now apply inc_comp|].
  split; [now apply dec_comp|].
  split; [now apply neg_comp|].
  split; [now apply mul_comp|].
  split; [now apply mul_add_comp|].
  split; [now apply sub_mul_comp|].
  split; [now apply mul_not_comp|].
  intros Hp Hy. now apply div_unsafe_comp.
Qed.
End C01.
Print Assumptions C01_arith_sound.
Print Assumptions C02_arith_complete.

(** the hypotheses are met by a real run: in F_101, on loaded cells 7 and 9 the honest witness satisfies all constraints *)
Definition ex_arith : M 101 (list (AV 101)) :=
  x <- load_witness (of_Z 101 7) ;; y <- load_witness (of_Z 101 9) ;;
  r1 <- add (Existing x) (Existing y) ;; r2 <- sub (Existing x) (Existing y) ;; r3 <- mul_add (Existing x) (Existing y) (Constant (of_Z 101 5)) ;;
  r4 <- div_unsafe (Existing x) (Witness (of_Z 101 2)) ;; r5 <- mul_not (Existing x) (Existing y) ;; r6 <- sub_mul (Existing x) (Existing y) (Existing x) ;; r7 <- neg (Existing r1) ;; ret [r1; r2; r3; r4; r5; r6; r7].
Example C01_C02_example :
  run_ok 0 ex_arith (fun l => forallb (fun e => avz (fst e) =? snd e) (combine l [16; 99; 68; 54; 47; 45; 85])) = true.
Proof. vm_compute. reflexivity. Qed.

(** ** C03: boolean gates *)
Section C03.
Context (p : positive) (lb : nat) (Hp : prime (Z.pos p)).
Add Ring Fring : (F_ring p) (morphism (F_morph p), constants [Fcst]).
Implicit Types (a b c : qcell p).
Notation T := (fun _ => True).
Definition bret1 a (f : bool -> bool) : (cell -> F p) -> AV p -> Prop :=
  fun sg o => exists x, qsem sg a x /\ forall u, x = fbool u -> avs sg o = fbool (f u).
Definition bret2 a b (f : bool -> bool -> bool) : (cell -> F p) -> AV p -> Prop :=
  fun sg o => exists x y, qsem sg a x /\ qsem sg b y /\ forall u v, x = fbool u -> y = fbool v -> avs sg o = fbool (f u v).
Definition bret3 a b c (f : bool -> bool -> bool -> bool) : (cell -> F p) -> AV p -> Prop :=
  fun sg o => exists x y z, qsem sg a x /\ qsem sg b y /\ qsem sg c z /\
    forall u v w, x = fbool u -> y = fbool v -> z = fbool w -> avs sg o = fbool (f u v w).

Theorem C03_bool_sound : forall a b c : qcell p,
  (forall x : AV p, sound lb (assert_bit x) T (fun sg _ => avs sg x = F0 \/ avs sg x = F1)) /\
  sound lb (and a b) T (bret2 a b andb) /\
  sound lb (or a b) T (bret2 a b orb) /\
  sound lb (xor a b) T (bret2 a b xorb) /\
  sound lb (not a) T (bret1 a negb) /\
  sound lb (or_and a b c) T (bret3 a b c (fun u v w => u || (v && w))) /\
  sound lb (select a b c) T (fun sg o => exists x y z, qsem sg a x /\ qsem sg b y /\ qsem sg c z /\
     forall w, z = fbool w -> avs sg o = if (w : bool) then x else y).
Proof.
  intros. repeat (match goal with |- _ /\ _ => split end).
  - intros x. now apply assert_bit_sound.
  - eapply sound_weaken; [apply mul_sound|auto|]. intros sg o _ (x & y & H1 & H2 & H3). exists x, y. do 2 (split; auto).
    intros [] [] -> ->; rewrite H3; cbn; ring.
  - eapply sound_weaken; [apply or_sound|auto|]. intros sg o _ (x & y & H1 & H2 & H3). exists x, y. do 2 (split; auto).
    intros [] [] -> ->; rewrite H3; cbn; ring.
  - eapply sound_weaken; [apply xor_sound|auto|]. intros sg o _ (x & y & H1 & H2 & H3). exists x, y. do 2 (split; auto).
    intros [] [] -> ->; rewrite H3; cbn; ring.
  - eapply sound_weaken; [apply not_sound|auto|]. intros sg o _ (x & H1 & H3). exists x. split; auto.
    intros [] ->; rewrite H3; cbn; ring.
  - eapply sound_weaken; [apply or_and_sound|auto|]. intros sg o _ (x & y & z & H1 & H2 & H3 & H4). exists x, y, z. do 3 (split; auto).
    intros [] [] [] -> -> ->; rewrite H4; cbn; ring.
  - eapply sound_weaken; [apply select_sound|auto|]. intros sg o _ (x & y & z & H1 & H2 & H3 & H4). exists x, y, z. do 3 (split; auto).
    intros [] ->; rewrite H4; cbn; ring.
Qed.

Notation ok := (fun rho o => av_ok rho o).
Theorem C03_bool_complete : forall (a b c : qcell p) (x y : F p) (u v w : bool),
  let H1 := fun rho => q_ok rho a in
  let H2 := fun rho => q_ok rho a /\ q_ok rho b in
  let H3 := fun rho => q_ok rho a /\ q_ok rho b /\ q_ok rho c in
  (forall t : AV p, hv t (fbool u) -> comp lb (fun rho => av_ok rho t) (assert_bit t) (fun _ => True) (fun _ _ => True)) /\
  (qh a (fbool u) -> qh b (fbool v) -> comp lb H2 (and a b) (fun o => hv o (fbool (u && v))) ok) /\
  (qh a (fbool u) -> qh b (fbool v) -> comp lb H2 (or a b) (fun o => hv o (fbool (u || v))) ok) /\
  (qh a (fbool u) -> qh b (fbool v) -> comp lb H2 (xor a b) (fun o => hv o (fbool (xorb u v))) ok) /\
  (qh a (fbool u) -> comp lb H1 (not a) (fun o => hv o (fbool (negb u))) ok) /\
  (qh a (fbool u) -> qh b (fbool v) -> qh c (fbool w) -> comp lb H3 (or_and a b c) (fun o => hv o (fbool (u || (v && w)))) ok) /\
  (qh a x -> qh b y -> qh c (fbool w) -> comp lb H3 (select a b c) (fun o => hv o (if (w : bool) then x else y)) ok).
Proof.
  intros. repeat (match goal with |- _ /\ _ => split end).
  - intros t Ht. eapply assert_bit_comp; eauto. destruct u; [right|left]; reflexivity.
  - intros Ha Hb. eapply comp_weaken; [apply mul_comp; eauto|auto| |auto]. intros o Ho. cbv beta in Ho.
    eqv_hv Ho; destruct u, v; cbn; ring.
  - intros Ha Hb. eapply comp_weaken; [apply or_comp; eauto|auto| |auto]. intros o Ho. cbv beta in Ho.
    eqv_hv Ho; destruct u, v; cbn; ring.
  - intros Ha Hb. eapply comp_weaken; [apply xor_comp; eauto|auto| |auto]. intros o Ho. cbv beta in Ho.
    eqv_hv Ho; destruct u, v; cbn; ring.
  - intros Ha. eapply comp_weaken; [apply not_comp; eauto|auto| |auto]. intros o Ho. cbv beta in Ho.
    eqv_hv Ho; destruct u; cbn; ring.
  - intros Ha Hb Hc. eapply comp_weaken; [apply or_and_comp; eauto|auto| |auto]. intros o Ho. cbv beta in Ho.
    eqv_hv Ho; destruct u, v, w; cbn; ring.
  - intros Ha Hb Hc. eapply comp_weaken; [apply select_comp; eauto|auto| |auto]. intros o Ho. cbv beta in Ho.
    eqv_hv Ho; destruct w; cbn; ring.
Qed.
End C03.
Print Assumptions C03_bool_sound.
Print Assumptions C03_bool_complete.
Definition ex_bool : M 101 (list (AV 101)) :=
  t <- load_witness (of_Z 101 1) ;; f <- load_witness (of_Z 101 0) ;; assert_bit t ;;; assert_bit f ;;;
  let t := Existing t in let f := Existing f in
  r1 <- and t f ;; r2 <- or t f ;; r3 <- xor t t ;; r4 <- not f ;; r5 <- or_and f t t ;; r6 <- select (Constant (of_Z 101 33)) (Constant (of_Z 101 44)) f ;;
  ret [r1; r2; r3; r4; r5; r6].
Example C03_example : run_ok 0 ex_bool (fun l => forallb (fun e => avz (fst e) =? snd e) (combine l [0; 1; 0; 1; 1; 44])) = true.
Proof. vm_compute. reflexivity. Qed.
(** and a dishonest value is rejected: assert_bit on 2 is unsatisfiable for the honest witness *)
Example C03_example_neg : run_ok 0 (x <- load_witness (of_Z 101 2) ;; assert_bit x) (fun _ => true) = false.
Proof. vm_compute. reflexivity. Qed.

(** ** C04: is_zero / is_equal *)
Section C04.
Context (p : positive) (lb : nat) (Hp : prime (Z.pos p)).
Add Ring Fring : (F_ring p) (morphism (F_morph p), constants [Fcst]).
Theorem C04_is_zero_is_equal_sound : forall (x : AV p) (a b : qcell p),
  sound lb (is_zero x) (fun _ => True) (fun sg o =>
    (avs sg x = F0 -> avs sg o = F1) /\ (avs sg x <> F0 -> avs sg o = F0)) /\
  sound lb (is_equal a b) (fun _ => True) (fun sg o => exists u v, qsem sg a u /\ qsem sg b v /\
    (u = v -> avs sg o = F1) /\ (u <> v -> avs sg o = F0)).
Proof.
  intros. split.
  - eapply sound_weaken; [now apply is_zero_sound|auto|]. intros sg o _ ->.
    split; intros H; [apply Fis0_true in H|apply Fis0_false in H]; rewrite H; reflexivity.
  - eapply sound_weaken; [now apply is_equal_sound|auto|]. intros sg o _ (u & v & H1 & H2 & ->). exists u, v. do 2 (split; auto).
    split; intros H; [apply Feqb_eq in H|apply Feqb_neq in H]; rewrite H; reflexivity.
Qed.
Theorem C04_is_zero_is_equal_complete : forall (x : AV p) (a b : qcell p) (v u w : F p), hv x v -> qh a u -> qh b w ->
  comp lb (fun rho => av_ok rho x) (is_zero x) (fun o => hv o (if F_dec p v F0 then F1 else F0)) (fun rho o => av_ok rho o) /\
  comp lb (fun rho => q_ok rho a /\ q_ok rho b) (is_equal a b) (fun o => hv o (if F_dec p u w then F1 else F0)) (fun rho o => av_ok rho o).
Proof.
  intros x a b v u w Hx Ha Hb. split.
  - eapply comp_weaken; [apply is_zero_comp; eauto|auto| |auto]. intros o Ho. cbv beta in Ho. eqv_hv Ho.
    destruct (F_dec p v F0) as [E|E]; [apply Fis0_true in E|apply Fis0_false in E]; rewrite E; reflexivity.
  - eapply comp_weaken; [apply is_equal_comp; eauto|auto| |auto]. intros o Ho. cbv beta in Ho. eqv_hv Ho.
    destruct (F_dec p u w) as [E|E]; [apply Feqb_eq in E|apply Feqb_neq in E]; rewrite E; reflexivity.
Qed.
End C04.
Print Assumptions C04_is_zero_is_equal_sound.
Print Assumptions C04_is_zero_is_equal_complete.
Definition ex_eq : M 101 (list (AV 101)) :=
  x <- load_witness (of_Z 101 7) ;; z <- load_zero ;; r1 <- is_zero x ;; r2 <- is_zero z ;;
  r3 <- is_equal (Existing x) (Constant (of_Z 101 108)) ;; r4 <- is_equal (Existing x) (Existing z) ;; ret [r1; r2; r3; r4].
Example C04_example : run_ok 0 ex_eq (fun l => forallb (fun e => avz (fst e) =? snd e) (combine l [0; 1; 1; 0])) = true.
Proof. vm_compute. reflexivity. Qed.

(** ** C05: inner products, sums, running sums *)
Section C05.
Context (p : positive) (lb : nat).
Notation vals sg l xs := (Forall2 (qsem sg) l xs).
Notation T := (fun _ => True).
(** running inner products / sums, and the recurrence of [accumulated_product] *)
Definition running (n : nat) (f : nat -> F p) : list (F p) := map f (seq 1 n).

Theorem C05_inner_product_sound : forall a b : list (qcell p), length a = length b ->
  sound lb (inner_product a b) T (fun sg o => exists xs ys, vals sg a xs /\ vals sg b ys /\ avs sg o = dot xs ys) /\
  sound lb (inner_product_left a b) (fun o => length (snd o) = length a)
    (fun sg o => exists xs ys, vals sg a xs /\ vals sg b ys /\ avs sg (fst o) = dot xs ys /\ map (avs sg) (snd o) = xs) /\
  sound lb (inner_product_left_last a b) T
    (fun sg o => exists xs ys, vals sg a xs /\ vals sg b ys /\ avs sg (fst o) = dot xs ys /\ avs sg (snd o) = last xs F0) /\
  sound lb (inner_product_with_sums a b) (fun o => length o = length a)
    (fun sg o => exists xs ys, vals sg a xs /\ vals sg b ys /\
       map (avs sg) o = running (length xs) (fun k => dot (firstn k xs) (firstn k ys))).
Proof.
  intros a b HL. repeat (match goal with |- _ /\ _ => split end).
  - now apply inner_product_sound.
  - now apply inner_product_left_sound.
  - now apply inner_product_left_last_sound.
  - now apply inner_product_with_sums_sound.
Qed.

Theorem C05_sums_sound : forall l : list (qcell p),
  sound lb (sum l) T (fun sg o => exists xs, vals sg l xs /\ avs sg o = fsum xs) /\
  sound lb (partial_sums l) T (fun sg o => exists xs, vals sg l xs /\
     (xs <> [] -> map (avs sg) o = running (length xs) (fun k => fsum (firstn k xs))) /\ (xs = [] -> map (avs sg) o = [F0])).
Proof.
  intros l. split; [apply sum_sound|]. eapply sound_weaken; [apply partial_sums_sound|auto|].
  intros sg o _ (xs & Fx & ->). exists xs. split; auto. destruct xs; split; auto; congruence.
Qed.

(** y_0 = b_0, y_{i+1} = y_i * a_i + b_{i+1} *)
Fixpoint accum (y : F p) (xs ys : list (F p)) : list (F p) :=
  match xs, ys with x :: xs, b :: ys => (y * x + b)%F :: accum (y * x + b)%F xs ys | _, _ => [] end.
Theorem C05_accumulated_product_sound : forall a b : list (qcell p), length b = S (length a) ->
  sound lb (accumulated_product a b) T (fun sg o => exists b0 xs ys, vals sg a xs /\ vals sg b (b0 :: ys) /\
     map (avs sg) o = b0 :: accum b0 xs ys).
Proof.
  intros a b HL. eapply sound_weaken; [now apply accumulated_product_sound|auto|].
  intros sg o _ (b0 & xs & ys & H1 & H2 & ->). exists b0, xs, ys. do 2 (split; auto). f_equal.
  clear. revert b0 ys. induction xs as [|x xs IH]; intros b0 [|y ys]; cbn; auto. now rewrite IH.
Qed.

Theorem C05_sum_products_sound : forall (values : list (F p * qcell p * qcell p)) (var : qcell p),
  sound lb (sum_products_with_coeff_and_var values var) T (fun sg o => exists v (ts : list (F p * F p * F p)), qsem sg var v /\
    Forall2 (fun q t => fst (fst t) = fst (fst q) /\
       (fst (fst q) <> F0 -> qsem sg (snd (fst q)) (snd (fst t)) /\ qsem sg (snd q) (snd t))) values ts /\
    avs sg o = (v + fsum (map (fun t => fst (fst t) * snd (fst t) * snd t) ts))%F).
Proof. intros. apply sum_products_sound. Qed.

Theorem C05_complete : forall (a b : list (qcell p)) (xs ys : list (F p)), Forall2 qh a xs -> Forall2 qh b ys -> length a = length b ->
  let H := fun rho => Forall (q_ok rho) a /\ Forall (q_ok rho) b in
  comp lb H (inner_product a b) (fun o => hv o (dot xs ys)) (fun rho o => av_ok rho o) /\
  comp lb H (inner_product_left a b) (fun o => hv (fst o) (dot xs ys) /\ Forall2 hv (snd o) xs)
    (fun rho o => av_ok rho (fst o) /\ Forall (av_ok rho) (snd o)) /\
  comp lb (fun rho => Forall (q_ok rho) a) (sum a) (fun o => hv o (fsum xs)) (fun rho o => av_ok rho o).
Proof.
  intros a b xs ys Ha Hb HL H. repeat (match goal with |- _ /\ _ => split end).
  - now apply inner_product_comp.
  - now apply inner_product_left_comp.
  - now apply sum_comp.
Qed.
End C05.
Print Assumptions C05_inner_product_sound.
Print Assumptions C05_sums_sound.
Print Assumptions C05_accumulated_product_sound.
Print Assumptions C05_sum_products_sound.
Print Assumptions C05_complete.
Definition w (z : Z) : qcell 101 := Witness (of_Z 101 z).
Definition c (z : Z) : qcell 101 := Constant (of_Z 101 z).
Definition ex_ip : M 101 (list (AV 101)) :=
  r1 <- inner_product [w 1; w 2; w 3] [c 1; c 10; w 5] ;; r2 <- inner_product [w 1; w 2; w 3] [c 2; c 10; w 5] ;;
  r3 <- inner_product_with_sums [w 1; w 2; w 3] [c 1; c 10; w 5] ;; r4 <- partial_sums [w 1; w 2; w 3; w 4] ;;
  r5 <- accumulated_product [w 2; w 3] [c 1; c 5; c 7] ;; r6 <- sum_products_with_coeff_and_var [(of_Z 101 2, w 3, w 4); (of_Z 101 0, w 3, w 4); (of_Z 101 1, w 3, w 4)] (w 1) ;;
  r7 <- inner_product_left [w 1; w 2] [c 1; c 4] ;; r8 <- inner_product_left_last [w 1; w 2] [c 3; c 4] ;;
  ret (r1 :: r2 :: r3 ++ r4 ++ r5 ++ [r6; fst r7] ++ snd r7 ++ [fst r8; snd r8]).
Example C05_example : run_ok 0 ex_ip (fun l => forallb (fun e => avz (fst e) =? snd e)
  (combine l [36; 37; 1; 21; 36; 1; 3; 6; 10; 1; 7; 28; 37; 9; 1; 2; 11; 2])) = true.
Proof. vm_compute. reflexivity. Qed.

(** ** C06: indicators and selection *)
Section C06.
Context (p : positive) (lb : nat) (Hp : prime (Z.pos p)).
Theorem C06_bits_to_indicator_sound : forall (bits : list (AV p)) (bs : list bool),
  sound lb (bits_to_indicator bits) (fun o => length o = (2 ^ length bits)%nat)
    (fun sg o => map (avs sg) bits = map fbool bs ->
       forall i, (i < 2 ^ length bits)%nat -> nth i (map (avs sg) o) F0 = fbool (Z.of_nat i =? undigits 1 (map Z.b2z bs))).
Proof.
  intros. eapply sound_weaken; [apply bits_to_indicator_sound|auto|]. intros sg o _ -> HB i Hi.
  rewrite HB. apply ind_of_bits. apply (f_equal (@length _)) in HB. rewrite !map_length in HB. now rewrite <- HB.
Qed.
Theorem C06_idx_to_indicator_sound : forall (idx : qcell p) (len : nat), Z.of_nat len <= Z.pos p ->
  sound lb (idx_to_indicator idx len) (fun o => length o = len)
    (fun sg o => exists x, qsem sg idx x /\ forall i, (i < len)%nat -> nth i (map (avs sg) o) F0 = fbool (val x =? Z.of_nat i)).
Proof.
  intros idx len HL. eapply sound_weaken; [now apply idx_to_indicator_sound|auto|]. intros sg o _ (x & Hx & ->). exists x. split; auto.
  intros i Hi. now apply idx_ind_val.
Qed.
Theorem C06_select_sound : forall (cells : list (qcell p)) (idx : qcell p) (ind : list (AV p)),
  (length cells = length ind -> sound lb (select_by_indicator cells ind) (fun _ => True)
     (fun sg o => exists xs, Forall2 (qsem sg) cells xs /\ avs sg o = dot xs (map (avs sg) ind))) /\
  (Z.of_nat (length cells) <= Z.pos p -> sound lb (select_from_idx cells idx) (fun _ => True)
     (fun sg o => exists xs x, Forall2 (qsem sg) cells xs /\ qsem sg idx x /\ avs sg o = nth (Z.to_nat (val x)) xs F0)).
Proof. intros. split; intros; [now apply select_by_indicator_sound|now apply select_from_idx_sound]. Qed.
(** with a one-hot indicator, entry (i, j) of the array is selected *)
Theorem C06_select_array_sound : forall (m : list (list (AV p))) (ind : list (AV p)), length m = length ind ->
  sound lb (select_array_by_indicator m ind) (fun o => length o = length (hd [] m))
    (fun sg o => forall i j, (i < length m)%nat -> (j < length (hd [] m))%nat ->
       (forall k, (k < length ind)%nat -> nth k (map (avs sg) ind) F0 = fbool (Nat.eqb k i)) ->
       nth j (map (avs sg) o) F0 = nth j (nth i (map (map (avs sg)) m) []) F0).
Proof.
  intros m ind HL. eapply sound_weaken; [now apply select_array_sound|auto|]. intros sg o _ -> i j Hi Hj HI.
  rewrite nth_indep with (d' := dot (vcol 0 (map (map (avs sg)) m)) (map (avs sg) ind)) by now rewrite map_length, seq_length.
  rewrite (map_nth (fun j => dot (vcol j (map (map (avs sg)) m)) (map (avs sg) ind))), seq_nth by auto. cbn [Nat.add].
  rewrite dot_onehot_nth with (i := i).
  - unfold vcol. assert (E : F0 = nth j ([] : list (F p)) F0) by (now destruct j).
    rewrite E at 1. now rewrite (map_nth (fun r => nth j r F0)).
  - unfold vcol. now rewrite !map_length.
  - intros k Hk. apply HI. now rewrite map_length in Hk.
Qed.
Theorem C06_complete : forall (bits : list (AV p)) (bs : list bool) (cells : list (qcell p)) (xs : list (F p)) (idx : qcell p) (x : F p),
  Forall2 hv bits (map fbool bs) -> bits <> [] -> Forall2 qh cells xs -> qh idx x -> Z.of_nat (length cells) <= Z.pos p ->
  comp lb (fun rho => Forall (av_ok rho) bits) (bits_to_indicator bits)
    (fun o => Forall2 hv o (map (fun i => fbool (Z.of_nat i =? undigits 1 (map Z.b2z bs))) (seq 0 (2 ^ length bits)))) (fun rho o => Forall (av_ok rho) o) /\
  comp lb (fun rho => q_ok rho idx) (idx_to_indicator idx (length cells))
    (fun o => Forall2 hv o (map (fun i => fbool (val x =? Z.of_nat i)) (seq 0 (length cells)))) (fun rho o => Forall (av_ok rho) o) /\
  comp lb (fun rho => Forall (q_ok rho) cells /\ q_ok rho idx) (select_from_idx cells idx)
    (fun o => hv o (nth (Z.to_nat (val x)) xs F0)) (fun rho o => av_ok rho o).
Proof.
  intros bits bs cells xs idx x Hb Hn Hc Hi HL. repeat (match goal with |- _ /\ _ => split end).
  - eapply comp_weaken; [apply (bits_to_indicator_comp lb bits _ Hb Hn)|auto| |auto]. intros o Ho. cbv beta in Ho.
    assert (L : length bs = length bits) by (apply Forall2_len in Hb; now rewrite map_length in Hb).
    replace (map _ (seq 0 (2 ^ length bits))) with (ind_of (map (@fbool p) bs)); [exact Ho|].
    apply nth_ext with (d := F0) (d' := fbool (Z.of_nat 0 =? undigits 1 (map Z.b2z bs))).
    + rewrite ind_of_length, !map_length, seq_length. now rewrite L.
    + intros n Hlt. rewrite ind_of_length, map_length in Hlt. rewrite ind_of_bits by auto.
      rewrite (map_nth (fun i => fbool (Z.of_nat i =? undigits 1 (map Z.b2z bs)))), seq_nth by (now rewrite <- L). reflexivity.
  - eapply comp_weaken; [apply (idx_to_indicator_comp lb Hp idx x _ Hi)|auto| |auto]. intros o Ho. cbv beta in Ho.
    replace (map _ (seq 0 (length cells))) with (idx_ind x (length cells)); [exact Ho|].
    apply map_ext_in. intros i Hin. apply in_seq in Hin. unfold Feqb. rewrite val_of_Z_small by lia. reflexivity.
  - now apply select_from_idx_comp.
Qed.
End C06.
Print Assumptions C06_bits_to_indicator_sound.
Print Assumptions C06_idx_to_indicator_sound.
Print Assumptions C06_select_sound.
Print Assumptions C06_select_array_sound.
Print Assumptions C06_complete.
Definition ex_ind : M 101 (list (AV 101)) :=
  t <- load_witness (of_Z 101 1) ;; f <- load_witness (of_Z 101 0) ;; r1 <- bits_to_indicator [t; f; t] ;; r2 <- idx_to_indicator (w 2) 3 ;;
  r3 <- select_from_idx [w 10; c 20; w 30] (w 1) ;; r4 <- select_from_idx [w 10; c 20; w 30] (w 7) ;; ret (r1 ++ r2 ++ [r3; r4]).
Example C06_example : run_ok 0 ex_ind (fun l => forallb (fun e => avz (fst e) =? snd e)
  (combine l [0; 0; 0; 0; 0; 1; 0; 0; 0; 0; 1; 20; 0])) = true.
Proof. vm_compute. reflexivity. Qed.

(** ** C07, C08: bits and powers *)
Section C07.
Context (p : positive) (lb : nat) (Hp : prime (Z.pos p)).
Theorem C07_num_to_bits_sound : forall (a : AV p) (n : nat),
  sound lb (num_to_bits a n) (fun o => length o = n)
    (fun sg o => Forall (fun x => avs sg x = F0 \/ avs sg x = F1) o /\
       avs sg a = of_Z p (undigits 1 (map (fun x => val (avs sg x)) o))) /\
  ((n <= CAPACITY p)%nat -> sound lb (num_to_bits a n) (fun o => length o = n)
    (fun sg o => val (avs sg a) < 2 ^ Z.of_nat n /\ map (fun x => val (avs sg x)) o = digits 1 n (val (avs sg a)))).
Proof.
  intros a n. split.
  - eapply sound_weaken; [now apply num_to_bits_sound|intros ? H; exact (proj1 H)|]. intros sg o [Ho _] [H1 H2]. split.
    + clear - H1. induction o; cbn in *; constructor; inversion H1; subst; auto.
    + rewrite H2. rewrite <- Ho. rewrite <- (map_length (avs sg) o) at 1. rewrite dot_pows_val, map_map. reflexivity.
  - intros Hn. apply num_to_bits_sound_int; auto. pose proof (CAPACITY_bound p) as [H _]. pose proof (pow2_le _ _ Hn). lia.
Qed.
Theorem C07_num_to_bits_complete : forall (a : AV p) (x : F p) (n : nat), hv a x -> (0 < n <= NUM_BITS p)%nat -> val x < 2 ^ Z.of_nat n ->
  comp lb (fun rho => av_ok rho a) (num_to_bits a n)
    (fun o => Forall2 hv o (map (of_Z p) (digits 1 n (val x)))) (fun rho o => Forall (av_ok rho) o).
Proof. intros. now apply num_to_bits_comp. Qed.
Theorem C07_bits_to_num_sound : forall bits : list (AV p),
  sound lb (bits_to_num bits) (fun _ => True) (fun sg o => avs sg o = of_Z p (undigits 1 (map (fun x => val (avs sg x)) bits))).
Proof. intros. eapply sound_weaken; [now apply bits_to_num_sound|auto|auto]. Qed.
Theorem C07_bits_to_num_complete : forall (bits : list (AV p)) (vs : list (F p)), Forall2 hv bits vs -> (length bits <= CAPACITY p)%nat ->
  comp lb (fun rho => Forall (av_ok rho) bits) (bits_to_num bits)
    (fun o => hv o (of_Z p (undigits 1 (map val vs)))) (fun rho o => av_ok rho o).
Proof. intros. now apply bits_to_num_comp. Qed.
Theorem C08_pow_var_sound : forall (a exp : AV p) (n : nat), (n <= CAPACITY p)%nat ->
  sound lb (pow_var a exp n) (fun _ => True)
    (fun sg o => val (avs sg exp) < 2 ^ Z.of_nat n /\ avs sg o = Fpow (avs sg a) (Z.to_nat (val (avs sg exp)))).
Proof. intros a e n Hn. apply pow_var_sound; auto. pose proof (CAPACITY_bound p) as [H _]. pose proof (pow2_le _ _ Hn). lia. Qed.
Theorem C08_pow_var_complete : forall (a exp : AV p) (n : nat) (x e : F p), hv a x -> hv exp e -> (0 < n <= NUM_BITS p)%nat ->
  val e < 2 ^ Z.of_nat n ->
  comp lb (fun rho => av_ok rho a /\ av_ok rho exp) (pow_var a exp n) (fun o => hv o (Fpow x (Z.to_nat (val e)))) (fun rho o => av_ok rho o).
Proof. intros. now apply pow_var_comp. Qed.
End C07.
Print Assumptions C07_num_to_bits_sound.
Print Assumptions C07_num_to_bits_complete.
Print Assumptions C07_bits_to_num_sound.
Print Assumptions C07_bits_to_num_complete.
Print Assumptions C08_pow_var_sound.
Print Assumptions C08_pow_var_complete.
Definition ex_bits : M 101 (list (AV 101)) :=
  x <- load_witness (of_Z 101 11) ;; b <- load_witness (of_Z 101 3) ;; bits <- num_to_bits x 5 ;; n <- bits_to_num bits ;; q <- pow_var b x 4 ;; ret (bits ++ [n; q]).
Example C07_C08_example : run_ok 0 ex_bits (fun l => forallb (fun e => avz (fst e) =? snd e)
  (combine l [1; 1; 0; 1; 0; 11; 3 ^ 11 mod 101])) = true.
Proof. vm_compute. reflexivity. Qed.
(** at n = NUM_BITS (allowed by the code) the decomposition is not canonical: in F_101 with 7 bits, the value 3 also has a satisfying
    assignment in which the bits are those of 104 = 3 + 101 *)
Definition ex_noncanon : M 101 (list (AV 101)) := x <- load_witness (of_Z 101 3) ;; num_to_bits x 7.
Definition bits104 : list (nat * Z) := [(0%nat, 0); (1%nat, 0); (2%nat, 0); (3%nat, 1); (4%nat, 0); (5%nat, 1); (6%nat, 1)].
Definition noncanon_patch : list (nat * F 101) :=
  flat_map (fun ib => let i := fst ib in let b := of_Z 101 (snd ib) in
     (match i with O => 1 | S i => 2 + 3 * i end, b)%nat ::
     (21 + 4 * i, b)%nat :: (22 + 4 * i, b)%nat :: (23 + 4 * i, b)%nat :: []) bits104
  ++ map (fun k => ((1 + 3 * k)%nat, of_Z 101 (104 mod 2 ^ Z.of_nat (S k)))) (seq 1 6).
Fixpoint zlist_eqb (a b : list Z) : bool :=
  match a, b with [], [] => true | x :: a, y :: b => (x =? y) && zlist_eqb a b | _, _ => false end.
Lemma zlist_eqb_eq a : forall b, zlist_eqb a b = true -> a = b.
Proof. induction a as [|x a IH]; intros [|y b]; cbn; try discriminate; auto. rewrite andb_true_iff, Z.eqb_eq. intros [-> H]. f_equal; auto. Qed.
Theorem C07_num_bits_noncanonical_refuted :
  exists (o : list (AV 101)) (s' : st 101) (sg : cell -> F 101), ex_noncanon (new_ctx false 0 0 0) = Some (o, s') /\
    Sat 0 sg s' /\ val (sg (mkCell 0 0 0)) = 3 /\ map (fun x => val (avs sg x)) o = [0; 0; 0; 1; 0; 1; 1].
Proof.
  assert (H : attack_ok 0 ex_noncanon noncanon_patch (fun sg o => (val (sg (mkCell 0 0 0)) =? 3) &&
     zlist_eqb (map (fun x => val (avs sg x)) o) [0; 0; 0; 1; 0; 1; 1]) = true) by (vm_compute; reflexivity).
  apply attack_ok_spec in H as (o & s' & sg & H1 & H2 & H3). apply andb_prop in H3 as [H3 H4].
  exists o, s', sg. do 2 (split; auto). split; [now apply Z.eqb_eq|now apply zlist_eqb_eq].
Qed.
Print Assumptions C07_num_bits_noncanonical_refuted.
