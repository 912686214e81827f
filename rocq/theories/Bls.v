(** Model of halo2-ecc/src/bn254/bls_signature.rs, from the aggregated points on. *)
From Coq Require Import ZArith Lia List Bool.
From Verif Require Import Field Context Utils Gate Range BigInt FpChip FieldExt ExtSpec ExtSpec2 Ecc FinalExp Pairing.
Import ListNotations.
Local Open Scope Z_scope.
Local Open Scope monad_scope.

Section Bls.
Context {p : positive} (lb : nat) (m : positive) (ch : fpchip p) (xi0 : Z) (ftab : list (x2 m)).
Variables (hint2 hint12 : list (F m) -> list (F m) -> list (F m)) (naf : list Z) (bx : Z).
(** bls_signature.rs:62-77 [bls_signature_verify], the part after the points are loaded and aggregated: [g1] is [g1_assigned], [sig] is [signature_agg_assigned],
    [pk] is [pubkey_agg_assigned], [msg] is [hash_m_assigned]. The Fp12 chip's [negate] acts on the coordinates of an Fp2 vector like the Fp2 chip's (vector.rs:191-197) *)
Definition bls_verify (g1 : ecpt p) (sig : g2pt p) (pk : ecpt p) (msg : g2pt p) : M p (AV p) :=
  neg_sig <- g2_negate lb ch sig ;;
  multi_paired <- multi_miller_loop_BN lb m ch xi0 ftab hint2 [(g1, neg_sig); (pk, msg)] naf ;;
  result <- final_exp lb m ch xi0 ftab hint2 hint12 bx multi_paired ;;
  fp12_one <- vec_load_constant m ch (x12_1 (m:=m)) ;;
  vec_is_equal lb ch result fp12_one.
End Bls.
