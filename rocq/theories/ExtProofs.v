(** FieldVectorChip and Fp2Chip (FieldExt.v) in terms of vectors over [F m] and elements of Fp2. [h : Prop] as in FpField.v. *)
From Coq Require Import ZArith Znumtheory Lia List Bool Ring.
From Verif Require Import Field Spec Context ContextProofs Utils Logic Gate GateProofs ChainProofs IPProofs BitProofs PowProofs IPComp Derived
  Range RangeProofs RangeProofs2 RangeProofs3 RegionGets Calc CalcH RegionPrev RegionLast BigPrims BigNum BigInt BigSpec BigOps BigSel BigCmp BigSub BigCarry BigMod BigCrtNum BigCrt FpChip FpProofs FpProofs2 FpProofs3 FpField FpField2 FpField3 FieldExt ExtSpec.
Import ListNotations.
Local Open Scope Z_scope.

Definition vmap2 {A B C} (f : A -> B -> C) (u : list A) (v : list B) : list C := map (fun xy => f (fst xy) (snd xy)) (combine u v).
Lemma F2_map_r {A B C} (R : A -> C -> Prop) (g : B -> C) l l' : Forall2 (fun x y => R x (g y)) l l' -> Forall2 R l (map g l').
Proof. induction 1; constructor; auto. Qed.
(** gluing: an elementwise relation, composed with facts about the inputs *)
Lemma F2_map_glue {A B C D} (R : A -> B -> Prop) (P : A -> C -> Prop) (Q : B -> D -> Prop) (f : C -> D) :
  forall a o u, Forall2 R a o -> Forall2 P a u -> (forall x y z, R x y -> P x z -> Q y (f z)) -> Forall2 Q o (map f u).
Proof. intros a o u H. revert u. induction H as [|x y a o H1 H2 IH]; intros u Hu HF; inversion Hu; subst; cbn [map]; constructor; eauto. Qed.
Lemma F2_zip_glue {A A' B C C' D} (R : A * A' -> B -> Prop) (P : A -> C -> Prop) (P' : A' -> C' -> Prop) (Q : B -> D -> Prop) (f : C -> C' -> D) :
  (forall x x' y z z', R (x, x') y -> P x z -> P' x' z' -> Q y (f z z')) ->
  forall a a' o u u', Forall2 R (combine a a') o -> length a = length a' -> Forall2 P a u -> Forall2 P' a' u' -> Forall2 Q o (vmap2 f u u').
Proof.
  intros HF a. induction a as [|x a IH]; intros [|x' a'] o u u' H HL Hu Hu'; try discriminate.
  - inversion H; subst. inversion Hu; subst. constructor.
  - cbn [combine] in H. inversion H; subst. inversion Hu; subst. inversion Hu'; subst. unfold vmap2. cbn [combine map fst snd]. constructor; eauto.
Qed.

Section ExtProofs.
Context {p : positive}.
Notation Fp := (F p).
Notation AV := (AV p).
Notation crt := (crt p).
Notation vec := (list crt).
Variables (lb : nat) (m : positive).
Notation env := (env (p:=p)).
Notation hcalc := (hcalc lb).
Hypothesis Hp : prime (Z.pos p).
Hypothesis Hlb : (1 <= lb < 64)%nat.
Hypothesis Hlb2 : (2 * lb <= CAPACITY p)%nat.
Hypothesis Hm : 1 < Z.pos m.
Add Ring Fring : (F_ring p) (morphism (F_morph p), constants [Fcst]).
Add Ring Fringm : (F_ring m) (morphism (F_morph m), constants [Fcst]).
Variables (ch : fpchip p) (n k : nat).
Hypothesis HN : fpchip_new m n k = Some ch.
Hypothesis HK : fp_params (p:=p) lb m n k.
Notation mz := (Z.pos m).
Notation Fm := (F m).
Notation M2 := (2 ^ Z.of_nat (bits mz)).
Notation W := (2 ^ Z.of_nat (n * k + NUM_BITS p)).
Notation frep := (frep (p:=p) m n).
Notation fred := (fred (p:=p) m n).
Notation fcan := (fcan (p:=p) m n).
Notation isk := (isk k).
Notation lg := (log2_ceil (Z.of_nat k)).

(** [k] limbs of declared size at most [b] *)
Definition islk (c : crt) (b : nat) : Prop := length (c_limbs c) = k /\ (c_bits c <= b)%nat.
(** declared limb sizes up to [b] fit the carry checks *)
Definition room (b : nat) : Prop := (Nat.max (b + 1) (2 * n + bit_length (Z.of_nat k)) + lb + 2 <= CAPACITY p)%nat.
Lemma room_mod b b' : room b -> (b' <= b)%nat -> fit_mod (p:=p) lb n k b'.
Proof. unfold room. intros H H'. apply (fit_mod_simple lb m Hlb Hlb2 n k HK). lia. Qed.
Lemma room_zero b b' : room b -> (b' <= b)%nat -> fit_zero (p:=p) lb n k b'.
Proof. unfold room. intros H H'. apply (fit_zero_simple lb m Hlb Hlb2 n k). lia. Qed.
Lemma room_le b b' : room b -> (b' <= b)%nat -> room b'. Proof. unfold room. lia. Qed.
Lemma islk_self c b : islk c b -> isk c (c_bits c). Proof. intros [H _]. now split. Qed.
Lemma isk_islk c b : isk c b -> islk c b. Proof. intros [H <-]. now split. Qed.
Lemma islk_le c b b' : islk c b -> (b <= b')%nat -> islk c b'. Proof. intros [H H'] ?. split; auto. lia. Qed.

Definition vcells (a : vec) : list AV := flat_map ccells a.
Definition vpre (L : list AV) (a : vec) : Prop := incl (vcells a) L.
Definition visk (a : vec) (b : nat) : Prop := Forall (fun c => islk c b) a.
Definition vism (a : vec) : Prop := Forall (fun c => isk c n) a.
Definition vrep (h : Prop) (e : env) (a : vec) (B : Z) (v : list Fm) : Prop := Forall2 (fun c x => frep h e c B x) a v.
Definition vred (h : Prop) (e : env) (a : vec) (v : list Fm) : Prop := Forall2 (fun c x => fred h e c x) a v.
Definition vcan (h : Prop) (e : env) (a : vec) (v : list Fm) : Prop := Forall2 (fun c x => fcan h e c x) a v.

Lemma vpre_in L a c : vpre L a -> In c a -> cpre L c.
Proof. intros H Hc x Hx. apply H, in_flat_map. eauto. Qed.
Lemma vpre_cons L c a : vpre L (c :: a) <-> cpre L c /\ vpre L a.
Proof. unfold vpre, vcells, cpre. cbn [flat_map]. split; [intros H; split; intros x Hx; apply H, in_or_app; auto|intros [H1 H2] x Hx; apply in_app_or in Hx as [Hx|Hx]; auto]. Qed.
Lemma vpre_of L a : (forall c, In c a -> cpre L c) -> vpre L a.
Proof. intros H x Hx. apply in_flat_map in Hx as (c & Hc & Hx). now apply (H c). Qed.
Lemma vism_visk a : vism a -> visk a n.
Proof. apply Forall_impl. intros c. apply isk_islk. Qed.
Lemma visk_le a b b' : visk a b -> (b <= b')%nat -> visk a b'.
Proof. intros H HL. revert H. apply Forall_impl. intros c Hc. now apply (islk_le c b). Qed.
Lemma fred_frep' h e c v : fred h e c v -> frep h e c M2 v.
Proof. apply (fred_frep lb m Hlb Hlb2). Qed.
Lemma vred_vrep h e a v : vred h e a v -> vrep h e a M2 v.
Proof. induction 1; constructor; auto. now apply fred_frep'. Qed.
Lemma vcan_vred h e a v : vcan h e a v -> vred h e a v.
Proof. induction 1; constructor; auto. now apply (fcan_fred lb m Hlb Hlb2 Hm). Qed.
Lemma vrep_weaken h e a B B' v : vrep h e a B v -> B <= B' -> vrep h e a B' v.
Proof. intros H HB. revert H. induction 1; constructor; auto. eapply frep_weaken; eauto. Qed.
Lemma vrep_len h e a B v : vrep h e a B v -> length a = length v. Proof. induction 1; cbn [length]; lia. Qed.
Lemma vred_len h e a v : vred h e a v -> length a = length v. Proof. induction 1; cbn [length]; lia. Qed.

Section Ops.
Variables (L : list AV) (Pre : env -> Prop) (Hon : Prop).

(** ** the operations of FpChip with upper bounds on the declared limb sizes *)
Lemma g_add (a b : crt) ba bb : cpre L a -> cpre L b -> islk a ba -> islk b bb ->
  hcalc L Pre Hon (fp_add_no_carry a b) (fun c => islk c (Nat.max ba bb + 1)) 
    (fun e c => forall h Ba Bb u v, frep h e a Ba u -> frep h e b Bb v -> frep h e c (Ba + Bb) (u + v)%F) ccells.
Proof.
  intros Ca Cb Ka Kb. eapply h_post; [apply (f_add lb m Hlb Hlb2 n k L Pre Hon a b _ _ Ca Cb (islk_self _ _ Ka) (islk_self _ _ Kb))| | |]; cbv beta; auto.
  - intros c Kc. eapply islk_le; [apply isk_islk; exact Kc|]. destruct Ka, Kb. lia.
  - intros c _. apply incl_appl, incl_refl.
Qed.
Lemma g_sub (a b : crt) ba bb : cpre L a -> cpre L b -> islk a ba -> islk b bb ->
  hcalc L Pre Hon (fp_sub_no_carry a b) (fun c => islk c (Nat.max ba bb + 1)) 
    (fun e c => forall h Ba Bb u v, frep h e a Ba u -> frep h e b Bb v -> frep h e c (Ba + Bb) (u - v)%F) ccells.
Proof.
  intros Ca Cb Ka Kb. eapply h_post; [apply (f_sub lb m Hlb Hlb2 n k L Pre Hon a b _ _ Ca Cb (islk_self _ _ Ka) (islk_self _ _ Kb))| | |]; cbv beta; auto.
  - intros c Kc. eapply islk_le; [apply isk_islk; exact Kc|]. destruct Ka, Kb. lia.
  - intros c _. apply incl_appl, incl_refl.
Qed.
Lemma g_mul_nc (a b : crt) ba bb : cpre L a -> cpre L b -> islk a ba -> islk b bb ->
  hcalc L Pre Hon (fp_mul_no_carry ch a b) (fun c => islk c (lg + ba + bb)) 
    (fun e c => forall h Ba Bb u v, frep h e a Ba u -> frep h e b Bb v -> frep h e c (Ba * Bb) (u * v)%F) ccells.
Proof.
  intros Ca Cb Ka Kb. eapply h_post; [apply (f_mul_nc lb m Hp Hlb Hlb2 Hm ch n k HN HK L Pre Hon a b _ _ Ca Cb (islk_self _ _ Ka) (islk_self _ _ Kb))| | |]; cbv beta; auto.
  - intros c Kc. eapply islk_le; [apply isk_islk; exact Kc|]. destruct Ka, Kb. lia.
  - intros c _. apply incl_appl, incl_refl.
Qed.
Lemma g_smul (a : crt) ba s : cpre L a -> islk a ba -> - 2 ^ 63 < s < 2 ^ 63 ->
  hcalc L Pre Hon (fp_scalar_mul_no_carry a s) (fun c => islk c (ba + log2_ceil (Z.abs s))) 
    (fun e c => forall h Ba u, frep h e a Ba u -> frep h e c (Ba * Z.abs s) (u * of_Z m s)%F) ccells.
Proof.
  intros Ca Ka Hs. eapply h_post; [apply (f_smul lb m n k L Pre Hon a _ s Ca (islk_self _ _ Ka) Hs)| | |]; cbv beta; auto.
  - intros c Kc. eapply islk_le; [apply isk_islk; exact Kc|]. destruct Ka. lia.
  - intros c _. apply incl_appl, incl_refl.
Qed.
Lemma g_smul_add (a b : crt) ba bb s : cpre L a -> cpre L b -> islk a ba -> islk b bb -> - 2 ^ 63 < s < 2 ^ 63 ->
  hcalc L Pre Hon (fp_scalar_mul_and_add_no_carry a b s) (fun c => islk c (Nat.max (ba + log2_ceil (Z.abs s)) bb + 1)) 
    (fun e c => forall h Ba Bb u v, frep h e a Ba u -> frep h e b Bb v -> frep h e c (Ba * Z.abs s + Bb) (u * of_Z m s + v)%F) ccells.
Proof.
  intros Ca Cb Ka Kb Hs. eapply h_post; [apply (f_smul_add lb m Hlb Hlb2 n k L Pre Hon a b _ _ s Ca Cb (islk_self _ _ Ka) (islk_self _ _ Kb) Hs)| | |]; cbv beta; auto.
  - intros c Kc. eapply islk_le; [apply isk_islk; exact Kc|]. destruct Ka, Kb. lia.
  - intros c _. apply incl_appl, incl_refl.
Qed.
Lemma g_addc (a : crt) ba (s : Fm) : cpre L a -> islk a ba ->
  hcalc L Pre Hon (fp_add_constant_no_carry m ch a s) (fun c => islk c (Nat.max ba n + 1)) 
    (fun e c => forall h Ba u, frep h e a Ba u -> frep h e c (Ba + M2) (u + s)%F) ccells.
Proof.
  intros Ca Ka. eapply h_post; [apply (f_addc lb m Hp Hlb Hlb2 Hm ch n k HN HK L Pre Hon a _ s Ca (islk_self _ _ Ka))| | |]; cbv beta; auto.
  - intros c Kc. eapply islk_le; [apply isk_islk; exact Kc|]. destruct Ka. lia.
  - intros c _. apply incl_appl, incl_refl.
Qed.
Lemma g_carry (a : crt) ba : cpre L a -> islk a ba -> room ba ->
  (Hon -> Pre hval -> exists B v, frep True hval a B v /\ 8 * B < W) ->
  hcalc L Pre Hon (fp_carry_mod lb ch a) (fun c => isk c n)
    (fun e c => forall h B v, frep h e a B v -> 8 * B < W -> fred h e c v) ccells.
Proof.
  intros Ca Ka Hr. apply (f_carry lb m Hp Hlb Hlb2 Hm ch n k HN HK L Pre Hon a _ Ca (islk_self _ _ Ka)). eapply room_mod; eauto. apply Ka.
Qed.
Lemma g_check0 (a : crt) ba : cpre L a -> islk a ba -> room ba ->
  (Hon -> Pre hval -> exists B, frep True hval a B F0 /\ 8 * B < W) ->
  hcalc L Pre Hon (fp_check_carry_mod_to_zero lb ch a) (fun _ => True)
    (fun e _ => forall h B v, frep h e a B v -> 8 * B < W -> v = F0) (fun _ => []).
Proof.
  intros Ca Ka Hr. apply (f_check0 lb m Hp Hlb Hlb2 Hm ch n k HN HK L Pre Hon a _ Ca (islk_self _ _ Ka)). eapply room_zero; eauto. apply Ka.
Qed.

(** ** elementwise lifting *)
Lemma v_mapM (op : crt -> M p crt) (K K' : crt -> Prop) (R : env -> crt -> crt -> Prop) a : vpre L a -> Forall K a ->
  (forall c, In c a -> cpre L c -> K c -> hcalc L Pre Hon (op c) K' (fun e o => R e c o) ccells) ->
  hcalc L Pre Hon (mapM op a) (fun o => length o = length a /\ Forall K' o) (fun e o => Forall2 (R e) a o) vcells.
Proof.
  intros HP HF H. rewrite Forall_forall in HF.
  eapply h_post; [apply (h_mapM lb L Pre Hon op (fun _ o => K' o) R ccells a); intros x Hx; apply H; auto; eapply vpre_in; eauto| | |]; cbv beta.
  - intros o Ho. split; [symmetry; eapply Forall2_len; eauto|]. clear - Ho. induction Ho; constructor; auto.
  - auto.
  - intros o _. apply incl_appl, incl_refl.
Qed.
Lemma v_zipM {D} (dcells : D -> list AV) (op : crt -> D -> M p crt) (K : crt -> Prop) (J : D -> Prop) (K' : crt -> Prop) (R : env -> crt -> D -> crt -> Prop) a (b : list D) :
  vpre L a -> incl (flat_map dcells b) L -> Forall K a -> Forall J b -> (Hon -> length a = length b) ->
  (forall c d, In c a -> In d b -> cpre L c -> incl (dcells d) L -> K c -> J d -> hcalc L Pre Hon (op c d) K' (fun e o => R e c d o) ccells) ->
  hcalc L Pre Hon (vzip op a b) (fun o => length a = length b /\ length o = length a /\ Forall K' o) (fun e o => Forall2 (fun xy => R e (fst xy) (snd xy)) (combine a b) o) vcells.
Proof.
  intros HP HQ HF HJ HL H. rewrite Forall_forall in HF, HJ. unfold vzip, zip_eq.
  destruct (Nat.eqb_spec (length a) (length b)) as [E|E].
  - change (bind (lift (Some (combine a b))) (fun l => mapM (fun xy => op (fst xy) (snd xy)) l)) with (mapM (fun xy => op (fst xy) (snd xy)) (combine a b)).
    eapply h_post; [apply (h_mapM lb L Pre Hon (fun xy => op (fst xy) (snd xy)) (fun _ o => K' o) (fun e xy => R e (fst xy) (snd xy)) ccells (combine a b))| | |]; cbv beta.
    + intros [x y] Hx. cbn [fst snd]. pose proof (in_combine_l _ _ _ _ Hx). pose proof (in_combine_r _ _ _ _ Hx). apply H; auto; [eapply vpre_in; eauto|].
      intros z Hz. apply HQ, in_flat_map. eauto.
    + intros o Ho. split; auto. split. { apply Forall2_len in Ho. rewrite combine_length in Ho. lia. } clear - Ho. induction Ho; constructor; auto.
    + auto.
    + intros o _. apply incl_appl, incl_refl.
  - eapply h_lift_bind; [intros Hh; exfalso; auto|discriminate].
Qed.
(** no cells are needed for constants *)
Notation nocells := (fun _ => @nil AV).

Definition vlen2 (a b : vec) : Prop := Hon -> length a = length b.
Lemma v_add (a b : vec) ba bb : vpre L a -> vpre L b -> visk a ba -> visk b bb -> vlen2 a b ->
  hcalc L Pre Hon (vec_add_no_carry a b) (fun o => length a = length b /\ length o = length a /\ visk o (Nat.max ba bb + 1))
    (fun e o => forall h Ba Bb u v, vrep h e a Ba u -> vrep h e b Bb v -> vrep h e o (Ba + Bb) (vmap2 Fadd u v)) vcells.
Proof.
  intros Ca Cb Ka Kb HL. unfold vec_add_no_carry.
  eapply h_post; [apply (v_zipM ccells (fun x y => fp_add_no_carry x y) (fun c => islk c ba) (fun c => islk c bb) (fun c => islk c (Nat.max ba bb + 1)) (fun e x y c => forall h Ba Bb u v, frep h e x Ba u -> frep h e y Bb v -> frep h e c (Ba + Bb) (u + v)%F) a b Ca Cb Ka Kb HL); intros; apply g_add; auto| | |]; cbv beta; auto.
  - intros e o (H1 & H2 & H3) _ R h Ba Bb u v Hu Hv. eapply (F2_zip_glue _ _ _ _ Fadd) with (2 := R) (3 := H1) (4 := Hu) (5 := Hv). cbn [fst snd]. eauto.
  - intros c _. apply incl_appl, incl_refl.
Qed.
Lemma v_sub (a b : vec) ba bb : vpre L a -> vpre L b -> visk a ba -> visk b bb -> vlen2 a b ->
  hcalc L Pre Hon (vec_sub_no_carry a b) (fun o => length a = length b /\ length o = length a /\ visk o (Nat.max ba bb + 1))
    (fun e o => forall h Ba Bb u v, vrep h e a Ba u -> vrep h e b Bb v -> vrep h e o (Ba + Bb) (vmap2 Fsub u v)) vcells.
Proof.
  intros Ca Cb Ka Kb HL. unfold vec_sub_no_carry.
  eapply h_post; [apply (v_zipM ccells (fun x y => fp_sub_no_carry x y) (fun c => islk c ba) (fun c => islk c bb) (fun c => islk c (Nat.max ba bb + 1)) (fun e x y c => forall h Ba Bb u v, frep h e x Ba u -> frep h e y Bb v -> frep h e c (Ba + Bb) (u - v)%F) a b Ca Cb Ka Kb HL); intros; apply g_sub; auto| | |]; cbv beta; auto.
  - intros e o (H1 & H2 & H3) _ R h Ba Bb u v Hu Hv. eapply (F2_zip_glue _ _ _ _ Fsub) with (2 := R) (3 := H1) (4 := Hu) (5 := Hv). cbn [fst snd]. eauto.
  - intros c _. apply incl_appl, incl_refl.
Qed.
Lemma v_smul_add (a b : vec) ba bb s : vpre L a -> vpre L b -> visk a ba -> visk b bb -> vlen2 a b -> - 2 ^ 63 < s < 2 ^ 63 ->
  hcalc L Pre Hon (vec_scalar_mul_and_add_no_carry a b s) (fun o => length a = length b /\ length o = length a /\ visk o (Nat.max (ba + log2_ceil (Z.abs s)) bb + 1))
    (fun e o => forall h Ba Bb u v, vrep h e a Ba u -> vrep h e b Bb v -> vrep h e o (Ba * Z.abs s + Bb) (vmap2 (fun x y => x * of_Z m s + y)%F u v)) vcells.
Proof.
  intros Ca Cb Ka Kb HL Hs. unfold vec_scalar_mul_and_add_no_carry.
  eapply h_post; [apply (v_zipM ccells (fun x y => fp_scalar_mul_and_add_no_carry x y s) (fun c => islk c ba) (fun c => islk c bb) (fun c => islk c (Nat.max (ba + log2_ceil (Z.abs s)) bb + 1)) (fun e x y c => forall h Ba Bb u v, frep h e x Ba u -> frep h e y Bb v -> frep h e c (Ba * Z.abs s + Bb) (u * of_Z m s + v)%F) a b Ca Cb Ka Kb HL); intros; apply g_smul_add; auto| | |]; cbv beta; auto.
  - intros e o (H1 & H2 & H3) _ R h Ba Bb u v Hu Hv. eapply (F2_zip_glue _ _ _ _ (fun x y => x * of_Z m s + y)%F) with (2 := R) (3 := H1) (4 := Hu) (5 := Hv). cbn [fst snd]. eauto.
  - intros c _. apply incl_appl, incl_refl.
Qed.
Lemma v_smul (a : vec) ba s : vpre L a -> visk a ba -> - 2 ^ 63 < s < 2 ^ 63 ->
  hcalc L Pre Hon (vec_scalar_mul_no_carry a s) (fun o => length o = length a /\ visk o (ba + log2_ceil (Z.abs s)))
    (fun e o => forall h Ba u, vrep h e a Ba u -> vrep h e o (Ba * Z.abs s) (map (fun x => x * of_Z m s)%F u)) vcells.
Proof.
  intros Ca Ka Hs. unfold vec_scalar_mul_no_carry.
  eapply h_post; [apply (v_mapM (fun x => fp_scalar_mul_no_carry x s) (fun c => islk c ba) (fun c => islk c (ba + log2_ceil (Z.abs s))) (fun e x c => forall h Ba u, frep h e x Ba u -> frep h e c (Ba * Z.abs s) (u * of_Z m s)%F) a Ca Ka); intros; apply g_smul; auto| | |]; cbv beta; auto.
  - intros e o _ _ R h Ba u Hu. eapply F2_map_glue; [exact R|exact Hu|]. cbv beta. eauto.
  - intros c _. apply incl_appl, incl_refl.
Qed.
Lemma v_fp_mul (a : vec) (x : crt) ba bb : vpre L a -> cpre L x -> visk a ba -> islk x bb ->
  hcalc L Pre Hon (vec_fp_mul_no_carry ch a x) (fun o => length o = length a /\ visk o (lg + ba + bb))
    (fun e o => forall h Ba Bb u y, vrep h e a Ba u -> frep h e x Bb y -> vrep h e o (Ba * Bb) (map (fun z => z * y)%F u)) vcells.
Proof.
  intros Ca Cx Ka Kx. unfold vec_fp_mul_no_carry.
  eapply h_post; [apply (v_mapM (fun c => fp_mul_no_carry ch c x) (fun c => islk c ba) (fun c => islk c (lg + ba + bb)) (fun e z c => forall h Ba Bb u v, frep h e z Ba u -> frep h e x Bb v -> frep h e c (Ba * Bb) (u * v)%F) a Ca Ka); intros; apply g_mul_nc; auto| | |]; cbv beta; auto.
  - intros e o _ _ R h Ba Bb u y Hu Hy. eapply F2_map_glue; [exact R|exact Hu|]. cbv beta. eauto.
  - intros c _. apply incl_appl, incl_refl.
Qed.
Lemma v_addc (a : vec) ba (s : list Fm) : vpre L a -> visk a ba -> (Hon -> length a = length s) ->
  hcalc L Pre Hon (vec_add_constant_no_carry m ch a s) (fun o => length a = length s /\ length o = length a /\ visk o (Nat.max ba n + 1))
    (fun e o => forall h Ba u, vrep h e a Ba u -> vrep h e o (Ba + M2) (vmap2 Fadd u s)) vcells.
Proof.
  intros Ca Ka HL. unfold vec_add_constant_no_carry.
  assert (Kc : Forall (fun _ : Fm => True) s) by (apply Forall_forall; auto).
  assert (Cc : incl (flat_map (fun _ : Fm => @nil AV) s) L). { intros x Hx. apply in_flat_map in Hx as (? & _ & []). }
  eapply h_post; [apply (v_zipM (fun _ => []) (fp_add_constant_no_carry m ch) (fun c => islk c ba) (fun _ => True) (fun c => islk c (Nat.max ba n + 1)) (fun e x s c => forall h Ba u, frep h e x Ba u -> frep h e c (Ba + M2) (u + s)%F) a s Ca Cc Ka Kc HL); intros; apply g_addc; auto| | |]; cbv beta; auto.
  - intros e o (H1 & H2 & H3) _ R h Ba u Hu. apply (F2_zip_glue _ (fun c x => frep h e c Ba x) (fun x y => x = y) (fun c x => frep h e c (Ba + M2) x) Fadd) with (1 := fun x x' y z z' R Hx E => eq_rect x' (fun w => frep h e y (Ba + M2) (z + w)%F) (R h Ba z Hx) z' E) (2 := R); auto.
    clear. induction s; constructor; auto.
  - intros c _. apply incl_appl, incl_refl.
Qed.
Definition hon_rep (a : vec) : Prop := Hon -> Pre hval -> exists B v, vrep True hval a B v /\ 8 * B < W.
Lemma v_carry (a : vec) ba : vpre L a -> visk a ba -> room ba -> hon_rep a ->
  hcalc L Pre Hon (vec_carry_mod lb ch a) (fun o => length o = length a /\ vism o)
    (fun e o => forall h B v, vrep h e a B v -> 8 * B < W -> vred h e o v) vcells.
Proof.
  intros Ca Ka Hr HH. unfold vec_carry_mod.
  eapply h_post; [apply (v_mapM (fp_carry_mod lb ch) (fun c => islk c ba) (fun c => isk c n) (fun e x c => forall h B v, frep h e x B v -> 8 * B < W -> fred h e c v) a Ca Ka)| | |]; cbv beta; auto.
  - intros c Hc Cc Kc. eapply g_carry; eauto. intros Hh HP. destruct (HH Hh HP) as (B & v & Hv & HB).
    apply In_nth_error in Hc as (i & Hi). destruct (nth_error v i) as [x|] eqn:Ex. 2:{ apply nth_error_None in Ex. rewrite <- (vrep_len _ _ _ _ _ Hv) in Ex. apply nth_error_None in Ex. congruence. }
    exists B, x. split; auto. clear - Hv Hi Ex. revert i Hi Ex. induction Hv; intros [|i]; cbn [nth_error]; try discriminate; intros; [congruence|eauto].
  - intros e o _ _ R h B v Hv HB. rewrite <- (map_id v). eapply F2_map_glue; [exact R|exact Hv|]. cbv beta. eauto.
  - intros c _. apply incl_appl, incl_refl.
Qed.
Lemma v_check0 (a : vec) ba : vpre L a -> visk a ba -> room ba -> (Hon -> Pre hval -> exists B v, vrep True hval a B v /\ 8 * B < W /\ Forall (fun x => x = F0) v) ->
  hcalc L Pre Hon (vec_check_carry_mod_to_zero lb ch a) (fun _ => True)
    (fun e _ => forall h B v, vrep h e a B v -> 8 * B < W -> Forall (fun x => x = F0) v) (fun _ => []).
Proof.
  intros Ca Ka Hr HH. unfold vec_check_carry_mod_to_zero. pose proof Ka as Ka'. unfold visk in Ka'. rewrite Forall_forall in Ka'.
  eapply h_post; [apply (h_iterM lb L Pre Hon _ (fun e c => forall h B v, frep h e c B v -> 8 * B < W -> v = F0) a)| | |]; cbv beta; auto.
  - intros c Hc. eapply g_check0; eauto; [eapply vpre_in; eauto|]. intros Hh HP. destruct (HH Hh HP) as (B & v & Hv & HB & H0). exists B. split; auto.
    clear - Hv Hc H0. revert Hc H0. induction Hv; intros Hc H0; [destruct Hc|destruct Hc as [->|Hc]; inversion H0; subst; auto].
  - intros e _ _ _ R h B v Hv HB. clear - R Hv HB. revert R. induction Hv; intros R; inversion R; subst; constructor; eauto.
  - intros c _ x [].
Qed.
Definition hon_red (a : vec) : Prop := Hon -> Pre hval -> exists v, vred True hval a v.
Lemma vred_in h e a v c : vred h e a v -> In c a -> exists x, fred h e c x.
Proof. intros H. revert c. induction H; intros c []; subst; eauto. Qed.
Lemma v_negate (a : vec) : vpre L a -> vism a -> (Hon -> zcap (p:=p) n k) -> hon_red a ->
  hcalc L Pre Hon (vec_negate lb ch a) (fun o => length o = length a /\ vism o) (fun e o => forall h v, vred h e a v -> vred h e o (map Fopp v)) vcells.
Proof.
  intros Ca Ka Hz HH. unfold vec_negate.
  eapply h_post; [apply (v_mapM (fp_negate lb ch) (fun c => isk c n) (fun c => isk c n) (fun e x c => forall h v, fred h e x v -> fred h e c (- v)%F) a Ca Ka)| | |]; cbv beta; auto.
  - intros c Hc Cc Kc. apply (f_negate lb m Hp Hlb Hlb2 Hm ch n k HN HK); auto. intros Hh HP. destruct (HH Hh HP) as (v & Hv). eapply vred_in; eauto.
  - intros e o _ _ R h v Hv. eapply F2_map_glue; [exact R|exact Hv|]. cbv beta. eauto.
  - intros c _. apply incl_appl, incl_refl.
Qed.
Lemma v_select (a b : vec) sel : vpre L a -> vpre L b -> In sel L -> vism a -> vism b -> vlen2 a b ->
  hcalc L Pre Hon (vec_select a b sel) (fun o => length a = length b /\ length o = length a /\ vism o)
    (fun e o => forall h u v (s : bool), e sel = fbool s -> vred h e a u -> vred h e b v -> vred h e o (if s then u else v)) vcells.
Proof.
  intros Ca Cb Cs Ka Kb HL. unfold vec_select.
  eapply h_post; [apply (v_zipM ccells (fun x y => fp_select x y sel) (fun c => isk c n) (fun c => isk c n) (fun c => isk c n) (fun e x y c => forall h u v (s : bool), e sel = fbool s -> fred h e x u -> fred h e y v -> fred h e c (if s then u else v)) a b Ca Cb Ka Kb HL); intros; apply (f_select lb m Hp n k); eauto| | |]; cbv beta; auto.
  - intros e o (H1 & H2 & H3) _ R h u v s Hs Hu Hv.
    assert (G : vred h e o (vmap2 (fun x y => if s then x else y) u v)).
    { eapply (F2_zip_glue _ _ _ _ (fun x y => if s then x else y)) with (2 := R) (3 := H1) (4 := Hu) (5 := Hv). cbn [fst snd]. intros. eapply H; eauto. }
    assert (LL : length u = length v) by (apply vred_len in Hu, Hv; lia).
    replace (if s then u else v) with (vmap2 (fun x y => if s then x else y) u v); auto.
    clear - LL. revert v LL. induction u as [|x u IH]; intros [|y v] LL; try discriminate; [now destruct s|]. unfold vmap2 in *. cbn [combine map fst snd]. rewrite IH by (cbn [length] in LL; lia). now destruct s.
  - intros c _. apply incl_appl, incl_refl.
Qed.
Lemma v_enforce (a : vec) : vpre L a -> vism a -> hon_red a ->
  hcalc L Pre Hon (vec_enforce_less_than lb ch a) (fun o => o = a) (fun e o => forall h v, vred h e a v -> vcan h e a v) (fun _ => []).
Proof.
  intros Ca Ka HH. unfold vec_enforce_less_than. unfold vism in Ka. rewrite Forall_forall in Ka.
  eapply h_post; [apply (h_mapM lb L Pre Hon _ (fun x o => o = x) (fun e x _ => forall h v, fred h e x v -> fcan h e x v) (fun _ => []) a)| | |]; cbv beta.
  - intros c Hc. eapply (f_enforce_lt lb m Hp Hlb Hlb2 Hm ch n k HN HK); eauto; [eapply vpre_in; eauto|]. intros Hh HP. destruct (HH Hh HP) as (v & Hv). eapply vred_in; eauto.
  - intros o H. clear - H. induction H; subst; auto.
  - intros e o Ho _ R h v Hv. clear - R Hv. revert o R. induction Hv; intros o R; inversion R; subst; constructor; eauto. eapply IHHv; eauto.
  - intros c _ x [].
Qed.
Lemma v_load_private (a : list Fm) :
  hcalc L Pre Hon (vec_load_private lb m ch a) (fun o => length o = length a /\ vism o)
    (fun e o => exists v, length v = length a /\ (forall h : Prop, (h -> e = hval) -> vred h e o v) /\ (e = hval -> v = a)) vcells.
Proof.
  unfold vec_load_private.
  eapply h_post; [apply (h_mapM lb L Pre Hon _ (fun _ o => isk o n) (fun e a c => exists v, (forall h : Prop, (h -> e = hval) -> fred h e c v) /\ (e = hval -> v = a)) ccells a)| | |]; cbv beta.
  - intros x _. apply (f_load_private lb m Hp Hlb Hlb2 Hm ch n k HN HK).
  - intros o H. split; [symmetry; eapply Forall2_len; eauto|]. clear - H. induction H; constructor; auto.
  - intros e o _ _ R. clear - R. induction R as [|x c a o (y & Y1 & Y2) R (v & V0 & V1 & V2)].
    + exists []. split; auto. split; [constructor|auto].
    + exists (y :: v). cbn [length]. split; [lia|]. split; [constructor; auto; now apply V1|]. intros E. f_equal; auto.
  - intros c _. apply incl_appl, incl_refl.
Qed.
Lemma v_load_constant (a : list Fm) :
  hcalc L Pre Hon (vec_load_constant m ch a) (fun o => length o = length a /\ vism o) (fun e o => forall h : Prop, (h -> e = hval) -> vcan h e o a) vcells.
Proof.
  unfold vec_load_constant.
  eapply h_post; [apply (h_mapM lb L Pre Hon _ (fun _ o => isk o n) (fun e a c => forall h : Prop, (h -> e = hval) -> fcan h e c a) ccells a)| | |]; cbv beta.
  - intros x _. apply (f_load_constant lb m Hp Hlb Hlb2 Hm ch n k HN HK).
  - intros o H. split; [symmetry; eapply Forall2_len; eauto|]. clear - H. induction H; constructor; auto.
  - intros e o _ _ R h Hh. clear - R Hh. induction R; constructor; eauto.
  - intros c _. apply incl_appl, incl_refl.
Qed.
End Ops.
End ExtProofs.
