(** * Specification of rounding errors of vectors *)

From Coq Require Import Reals ZArith.
From Flocq Require Import Core.Zaux Core.Raux IEEE754.BinarySingleNaN.
From Verif Require Import Scalar Linal SpecReal SpecIEEE.
Local Open Scope R_scope.

(** the real vector of a vector of floating point numbers *)
Definition vreal {p e n} (v : vec (binary_float p e) n) : vec R n := vmap B2R v.

(** half the distance of 1 to the next number: the relative error of one rounding *)
Definition uround (p : Z) : R := bpow radix2 (- p).

(** squares and their sum neither overflow nor vanish: the components are at most
    [2^K], one of them is at least [2^k] *)
Definition moderate {p e n} (k K : Z) (v : vec (binary_float p e) n) : Prop :=
  finite_pt v /\ (8 - e <= 2 * k)%Z /\ INR n * bpow radix2 (2 * K) <= bpow radix2 (e - 2) /\
  (forall i, (i < n)%nat -> Rabs (fval i v) <= bpow radix2 K) /\ (exists i, (i < n)%nat /\ bpow radix2 k <= Rabs (fval i v)).

(** the direction of a real vector *)
Definition rdirection {n} (v : vec R n) : vec R n := rscale (/ rnorm v) v.

(** two finite points whose squared distance is clearly below the overflow threshold [2^e] *)
Definition in_reach {p e n} (a b : vec (binary_float p e) n) : Prop :=
  finite_pt a /\ finite_pt b /\ rdist (vreal a) (vreal b) * rdist (vreal a) (vreal b) <= bpow radix2 (e - 4).

(** half the smallest positive number: the absolute error of one rounding *)
Definition uflow (p e : Z) : R := bpow radix2 (2 - e - p).
