(** Property theorems C36-C38 about the safe types. Reading guide: see PropsGate.v. [lb] is lookup_bits. *)
From Coq Require Import ZArith Znumtheory Lia List Bool.
From Verif Require Import Field Spec Context ContextProofs Utils Logic Gate GateProofs ChainProofs IPProofs BitProofs PowProofs SatCheck PropsGate
  Range RangeProofs RangeProofs2 PropsRange SafeTypes SafeProofs SafeProofs2.
Import ListNotations.
Local Open Scope Z_scope.
Local Open Scope monad_scope.

Section Safe.
Context (p : positive) (lb : nat) (Hp : prime (Z.pos p)) (Hlb : (1 <= lb < 64)%nat) (Hlb2 : (2 * lb <= CAPACITY p)%nat).
Notation U := (fun _ _ => True).
Definition is_byte (x : F p) : Prop := 0 <= val x < 256.
Definition all_bytes (sg : cell -> F p) (l : list (AV p)) : Prop := forall x, In x l -> is_byte (avs sg x).

(** ** C36 *)
Theorem C36_bool_sound : forall (x : AV p) (b : bool),
  sound lb (assert_bool x) (fun o => o = x) (fun sg _ => avs sg x = F0 \/ avs sg x = F1) /\
  sound lb (load_bool (p:=p) b) (fun _ => True) (fun sg o => avs sg o = F0 \/ avs sg o = F1).
Proof. intros x b. split; [now apply assert_bool_sound|now apply load_bool_sound]. Qed.
Theorem C36_byte_sound : forall (x : AV p) (b : Z),
  sound lb (assert_byte lb x) (fun o => o = x) (fun sg _ => is_byte (avs sg x)) /\
  sound lb (load_byte (p:=p) lb b) (fun _ => True) (fun sg o => is_byte (avs sg o)).
Proof. intros x b. split; [now apply assert_byte_sound|now apply load_byte_sound]. Qed.
Theorem C36_arrays_sound : forall (l : list (AV p)) (len : AV p) (max_len : nat),
  sound lb (raw_to_fix_len_bytes_vec lb l max_len) (fun o => o = l /\ length l = max_len) (fun sg _ => all_bytes sg l) /\
  (Z.of_nat max_len + 1 < Z.pos p -> 2 ^ Z.of_nat (pad_bits lb (bits (Z.of_nat max_len + 1)) + 1) <= Z.pos p ->
   sound lb (raw_to_var_len_bytes_vec lb l len max_len) (fun o => o = (l, len) /\ length l = max_len)
     (fun sg _ => all_bytes sg l /\ 0 <= val (avs sg len) <= Z.of_nat max_len)).
Proof.
  intros l len n. split.
  - eapply sound_weaken; [now apply raw_to_fix_len_sound|auto|]. intros sg o _ H x. cbv beta in H. rewrite Forall_forall in H. apply H.
  - intros H1 H2. rewrite Nat.add_1_r in H2. eapply sound_weaken; [now apply raw_to_var_len_sound|auto|]. intros sg o _ [H H'].
    split. { intros x. rewrite Forall_forall in H. apply H. } pose proof (val_bounds p (avs sg len)). lia.
Qed.
Theorem C36_complete : forall (l : list (AV p)) (vs : list (F p)) (len : AV p) (L : nat) (x : AV p) (b : bool) (by_ : Z),
  (8 <= CAPACITY p)%nat ->
  comp lb (fun _ => True) (load_bool (p:=p) b) (fun o => hv o (fbool b)) (fun rho o => av_ok rho o) /\
  (0 <= by_ < 256 -> comp lb (fun _ => True) (load_byte lb by_) (fun o => hv o (of_Z p by_)) (fun rho o => av_ok rho o)) /\
  (hv x (fbool b) -> comp lb (fun rho => av_ok rho x) (assert_bool x) (fun o => o = x) U) /\
  (hv x (of_Z p by_) -> 0 <= by_ < 256 -> comp lb (fun rho => av_ok rho x) (assert_byte lb x) (fun o => o = x) U) /\
  (Forall2 hv l vs -> Forall is_byte vs ->
   comp lb (fun rho => Forall (av_ok rho) l) (raw_to_fix_len_bytes_vec lb l (length l)) (fun o => o = l) U) /\
  (Forall2 hv l vs -> Forall is_byte vs -> hv len (of_Z p (Z.of_nat L)) -> (L <= length l)%nat ->
   Z.of_nat (length l) + 1 < 2 ^ 64 -> Z.of_nat (length l) + 1 < Z.pos p -> (pad_bits lb (bits (Z.of_nat (length l) + 1)) <= CAPACITY p)%nat ->
   comp lb (fun rho => Forall (av_ok rho) l /\ av_ok rho len) (raw_to_var_len_bytes_vec lb l len (length l)) (fun o => o = (l, len)) U).
Proof.
  intros l vs len L x b by_ HC. split; [now apply load_bool_comp|]. split; [intros; now apply load_byte_comp|].
  split.
  { intros Hx. eapply comp_bind; [apply (assert_bit_comp lb Hp x (fbool b) Hx)|auto|]. { destruct b; [right|left]; reflexivity. }
    intros [] _. apply comp_ret; auto. }
  split.
  { intros Hx Hb. eapply comp_weaken; [apply (assert_byte_comp Hp lb Hlb Hlb2 x (of_Z p by_) Hx)|auto|auto|auto]; auto.
    rewrite val_of_Z. pose proof (Z.mod_le by_ (Z.pos p)). lia. }
  assert (W : Forall is_byte vs -> Forall (fun v => val v < 256) vs) by (intros H; eapply Forall_impl; [|exact H]; cbv beta; unfold is_byte; lia).
  split.
  - intros HV HB. apply (raw_to_fix_len_comp Hp lb Hlb Hlb2 l vs); auto.
  - intros HV HB HLen HL H64 Hn Hpad. apply (raw_to_var_len_comp Hp lb Hlb Hlb2 l vs len L); auto.
Qed.

(** ** C37. Whatever the type: every input byte is a byte and the little-endian value of the inputs fits in TOTAL_BITS; for one-byte
    elements (and booleans) the outputs are the inputs themselves. What is missing for multi-byte elements is refuted below. *)
Theorem C37_raw_bytes_to_partial : forall (bytes_per_ele total_bits : nat) (l : list (AV p)),
  sound lb (raw_bytes_to lb bytes_per_ele total_bits l)
    (fun o => total_bits = 1%nat \/ Nat.min total_bits (bytes_per_ele * 8) = 8%nat -> o = l)
    (fun sg _ => all_bytes sg l /\ undigits 8 (map (fun x => val (avs sg x)) l) < 2 ^ Z.of_nat total_bits).
Proof.
  intros b t l. eapply sound_weaken; [now apply raw_bytes_to_inputs_sound| |].
  - cbv beta. unfold bits_per_ele, BITS_PER_BYTE. tauto.
  - intros sg o _ [H H']. split; auto. intros x. rewrite Forall_forall in H. apply H.
Qed.
(** the honest prover computes the little-endian value of each chunk of bytes *)
Definition le_chunks (n : nat) (vs : list (F p)) : list (F p) :=
  map (fun i => of_Z p (undigits 8 (map val (firstn n (skipn (i * n) vs))))) (seq 0 ((length vs + n - 1) / n)).
Theorem C37_raw_bytes_to_complete : forall (bytes_per_ele total_bits : nat) (l : list (AV p)) (vs : list (F p)),
  Forall2 hv l vs -> Forall is_byte vs -> (8 <= CAPACITY p)%nat ->
  (0 < bytes_per_ele)%nat -> (0 < total_bits)%nat -> (length l * 8 = Nat.max total_bits 8)%nat -> (8 * bytes_per_ele <= CAPACITY p)%nat ->
  undigits 8 (map val vs) < 2 ^ Z.of_nat total_bits ->
  comp lb (fun rho => Forall (av_ok rho) l) (raw_bytes_to lb bytes_per_ele total_bits l)
    (fun o => if ((total_bits =? 1) || (Nat.min total_bits (bytes_per_ele * 8) =? 8))%nat%bool then o = l else Forall2 hv o (le_chunks bytes_per_ele vs)) (fun rho o => Forall (av_ok rho) o).
Proof.
  intros b t l vs HV HB HC H0 Ht HL Hb HU. unfold raw_bytes_to.
  assert (W : Forall (fun v => val v < 256) vs) by (eapply Forall_impl; [|exact HB]; cbv beta; unfold is_byte; lia).
  intros s Ws. destruct (raw_bytes_to_comp Hp lb Hlb Hlb2 b t l vs HV W HC H0 Ht HL Hb HU s Ws) as (o & s' & E & W' & X & P & K).
  exists o, s'. do 3 (split; [assumption|]). split; auto.
  destruct (raw_bytes_to_inputs_sound Hp lb Hlb Hlb2 b t l s o s' Ws E) as (_ & _ & [_ P2] & _).
  unfold raw_bytes_spec in P. unfold bits_per_ele, BITS_PER_BYTE in *.
  destruct (Nat.eqb_spec t 1) as [->|N1]; [cbn; auto|]. cbn [orb] in *.
  destruct (Nat.eqb_spec (Nat.min t (b * 8)) 8) as [N2|N2]; [auto|].
  unfold le_chunks. unfold chunks in P. rewrite map_map in P. exact P.
Qed.

(** ** C38 *)
Theorem C38_left_pad_sound : forall (arr : list (AV p)) (len : AV p) (out_len : nat),
  (length arr <= out_len)%nat -> Z.of_nat out_len < 2 ^ 64 -> 2 ^ Z.of_nat (bit_length (Z.of_nat out_len)) <= Z.pos p ->
  sound lb (left_pad_var_array_to_fixed arr len out_len) (fun o => length o = out_len)
    (fun sg o => forall L : nat, avs sg len = of_Z p (Z.of_nat L) -> (L <= length arr)%nat ->
       map (avs sg) o = repeat F0 (out_len - L) ++ firstn L (map (avs sg) arr)).
Proof.
  intros arr len n H1 H2 H3. eapply sound_weaken; [now apply (left_pad_sound Hp lb arr len n)|auto|]. cbv beta zeta.
  intros sg o _ H L EL HL. assert (Z.of_nat n < 2 ^ Z.of_nat (bit_length (Z.of_nat n))) by (apply bit_length_spec; lia).
  assert (V : val (avs sg len) = Z.of_nat L) by (rewrite EL; apply val_of_Z_small; lia).
  rewrite V, Nat2Z.id in H. apply H. lia.
Qed.
Theorem C38_left_pad_complete : forall (arr : list (AV p)) (vs : list (F p)) (len : AV p) (L out_len : nat),
  Forall2 hv arr vs -> hv len (of_Z p (Z.of_nat L)) -> (0 < length arr)%nat -> (L <= length arr <= out_len)%nat -> Z.of_nat out_len < 2 ^ 64 ->
  2 ^ Z.of_nat (bit_length (Z.of_nat out_len)) <= Z.pos p -> (bit_length (Z.of_nat out_len) <= NUM_BITS p)%nat ->
  comp lb (fun rho => Forall (av_ok rho) arr /\ av_ok rho len) (left_pad_var_array_to_fixed arr len out_len)
    (fun o => Forall2 hv o (repeat F0 (out_len - L) ++ firstn L vs)) (fun rho o => Forall (av_ok rho) o).
Proof. intros. now apply left_pad_comp. Qed.
Theorem C38_ensure_0_padding_sound : forall (bytes : list (AV p)) (len : AV p), Z.of_nat (length bytes) < Z.pos p ->
  sound lb (ensure_0_padding bytes len) (fun o => length o = length bytes)
    (fun sg o => forall L : nat, avs sg len = of_Z p (Z.of_nat L) -> (L <= length bytes)%nat ->
       map (avs sg) o = firstn L (map (avs sg) bytes) ++ repeat F0 (length bytes - L)).
Proof.
  intros bytes len H1. eapply sound_weaken; [now apply (ensure_0_padding_sound Hp lb)|auto|]. cbv beta zeta.
  intros sg o _ H L EL HL. assert (V : val (avs sg len) = Z.of_nat L) by (rewrite EL; apply val_of_Z_small; lia).
  rewrite V, Nat2Z.id in H. apply H. lia.
Qed.
Theorem C38_ensure_0_padding_complete : forall (bytes : list (AV p)) (vs : list (F p)) (len : AV p) (L : nat),
  Forall2 hv bytes vs -> hv len (of_Z p (Z.of_nat L)) -> (L <= length bytes)%nat -> Z.of_nat (length bytes) < Z.pos p ->
  comp lb (fun rho => Forall (av_ok rho) bytes /\ av_ok rho len) (ensure_0_padding bytes len)
    (fun o => Forall2 hv o (firstn L vs ++ repeat F0 (length bytes - L))) (fun rho o => Forall (av_ok rho) o).
Proof. intros. now apply ensure_0_padding_comp. Qed.
End Safe.
Print Assumptions C36_bool_sound.
Print Assumptions C36_byte_sound.
Print Assumptions C36_arrays_sound.
Print Assumptions C36_complete.
Print Assumptions C37_raw_bytes_to_partial.
Print Assumptions C37_raw_bytes_to_complete.
Print Assumptions C38_left_pad_sound.
Print Assumptions C38_left_pad_complete.
Print Assumptions C38_ensure_0_padding_sound.
Print Assumptions C38_ensure_0_padding_complete.

(** ** examples (BN254 scalar field, lookup_bits = 8) *)
Definition lw (l : list Z) : M R (list (AV R)) := mapM (fun z => load_witness (fz z)) l.
Definition eq_list (l : list (AV R)) (zs : list Z) : bool := if list_eq_dec Z.eq_dec (map avz l) zs then true else false.
Example C36_example : run_ok 8 (
  b <- load_bool (p:=R) true ;; y <- load_byte 8 255 ;; l <- lw [1; 2; 255; 7] ;; n <- load_witness (fz 3) ;; r <- raw_to_var_len_bytes_vec 8 l n 4 ;;
  f <- raw_to_fix_len_bytes_vec 8 l 4 ;; ret (b :: y :: fst r ++ f)) (fun l => eq_list l [1; 255; 1; 2; 255; 7; 1; 2; 255; 7]) = true.
Proof. vm_compute. reflexivity. Qed.
Example C36_reject_example : run_ok 8 (y <- load_byte (p:=R) 8 256 ;; ret y) (fun _ => true) = false /\
  run_ok 8 (l <- lw [1; 2] ;; n <- load_witness (fz 3) ;; raw_to_var_len_bytes_vec 8 l n 2) (fun _ => true) = false.
Proof. split; vm_compute; reflexivity. Qed.
Example C37_example : run_ok 8 (l <- lw [1; 2; 3; 4] ;; raw_bytes_to 8 31 32 l) (fun o => eq_list o [67305985]) = true /\
  run_ok 8 (l <- lw [1; 2; 3; 4] ;; raw_bytes_to 8 1 32 l) (fun o => eq_list o [1; 2; 3; 4]) = true.
Proof. split; vm_compute; reflexivity. Qed.
Example C38_example : run_ok 8 (l <- lw [1; 2; 3; 4; 5] ;; n <- load_witness (fz 3) ;; z <- load_zero ;;
    a <- left_pad_var_array_to_fixed l n 6 ;; b <- ensure_0_padding l n ;; c <- ensure_0_padding l z ;; d <- left_pad_to_fixed l z ;; ret (a ++ b ++ c ++ d))
  (fun o => eq_list o ([0; 0; 0; 1; 2; 3] ++ [1; 2; 3; 0; 0] ++ [0; 0; 0; 0; 0] ++ [0; 0; 0; 0; 0])) = true.
Proof. vm_compute. reflexivity. Qed.

(** ** C37 refuted for multi-byte elements: the powers of 256 are assigned as free witnesses, so a SafeUint16 built from the bytes
    [1; 0] can take the value 2^200 *)
Definition evil_raw_bytes_to16 (x y : AV R) (b0 : Z) : M R (list (AV R)) :=
  add_bytes_constraints 8 [x; y] 16 ;;;
  v <- inner_product [Existing x; Existing y] [Witness (fz b0); Witness (fz 256)] ;; ret [v].
Theorem C37_packed_value_refuted : exists (o : list (AV R) * list (AV R)) (s' : st R) (sg : cell -> F R),
  (l <- lw [1; 0] ;; r <- raw_bytes_to 8 (CAPACITY R / 8) 16 l ;; ret (l, r)) (new_ctx false 0 0 0) = Some (o, s') /\ Sat 8 sg s' /\
  map (fun x => val (avs sg x)) (fst o) = [1; 0] /\ map (fun x => val (avs sg x)) (snd o) = [2 ^ 200].
Proof.
  set (m := l <- lw [1; 0] ;; r <- raw_bytes_to 8 (CAPACITY R / 8) 16 l ;; ret (l, r)).
  set (e := l <- lw [1; 0] ;; match l with [x; y] => evil_raw_bytes_to16 x y (2 ^ 200) | _ => panic end).
  assert (H : attack2_ok 8 m e (fun sg o => (if list_eq_dec Z.eq_dec (map (fun x => val (avs sg x)) (fst o)) [1; 0] then true else false) &&
     (if list_eq_dec Z.eq_dec (map (fun x => val (avs sg x)) (snd o)) [2 ^ 200] then true else false)) = true) by (vm_compute; reflexivity).
  apply attack2_ok_spec in H as (o & s' & sg & H1 & H2 & H3). apply andb_true_iff in H3 as [H3 H4].
  exists o, s', sg. split; auto. split; auto. split.
  - destruct (list_eq_dec Z.eq_dec (map (fun x => val (avs sg x)) (fst o)) [1; 0]); [assumption|discriminate].
  - destruct (list_eq_dec Z.eq_dec (map (fun x => val (avs sg x)) (snd o)) [2 ^ 200]); [assumption|discriminate].
Qed.
Print Assumptions C37_packed_value_refuted.
