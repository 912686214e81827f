(** What a big integer represented by cells means. [e] gives the value of every cell (an arbitrary assignment, or the honest one). *)
From Coq Require Import ZArith List.
From Verif Require Import Field Spec Context Calc BigInt.
Import ListNotations.
Local Open Scope Z_scope.

Section BigSpec.
Context {p : positive}.
Notation env := (env (p:=p)).

(** the cells of a CRT integer *)
Definition ccells (c : crt p) : list (AV p) := c_nat c :: c_limbs c.

(** The limbs hold, modulo [p], integers [ls] of absolute value at most [2^bits]; base [2^n], these are the digits of [x]
    modulo [2^(n*k)], where [k] is the number of limbs; the native cell holds [x mod p]. *)
Definition crep (n : nat) (e : env) (c : crt p) (x : Z) : Prop :=
  exists ls : list Z,
    map e (c_limbs c) = map (of_Z p) ls /\
    Forall (fun l => Z.abs l <= 2 ^ Z.of_nat (c_bits c)) ls /\
    (2 ^ Z.of_nat (n * length (c_limbs c)) | undigits n ls - x) /\
    e (c_nat c) = of_Z p x.

(** Every limb, as a number in [0, p), has at most [n] bits; the number they spell in base [2^n] is [x]; the native cell holds [x mod p]. *)
Definition proper (n : nat) (e : env) (c : crt p) (x : Z) : Prop :=
  c_bits c = n /\
  Forall (fun a => val (e a) < 2 ^ Z.of_nat n) (c_limbs c) /\
  x = undigits n (map (fun a => val (e a)) (c_limbs c)) /\
  e (c_nat c) = of_Z p x.
End BigSpec.
