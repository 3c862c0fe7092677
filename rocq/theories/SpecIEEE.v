(** * Specification of floating point points and comparisons *)

From Coq Require Import Reals List ZArith.
From Flocq Require Import Core.Zaux Core.Raux IEEE754.BinarySingleNaN.
From Verif Require Import Scalar Linal.
Local Open Scope R_scope.

(** every coordinate is a finite number *)
Definition finite_pt {p e n} (v : vec (binary_float p e) n) : Prop :=
  forall i, (i < n)%nat -> is_finite (vnth (B754_zero false) i v) = true.

(** the real value of the [i]-th coordinate *)
Definition fval {p e n} (i : nat) (v : vec (binary_float p e) n) : R := B2R (vnth (B754_zero false) i v).

(** ** The sandwich contract for comparisons of finite floating point numbers:
    as [LinalR] with a slack of [t], for linal's default tolerance. *)
Record LinalF {p e Hp He f g h pi} (L : Linal (IEEE p e Hp He f g h pi)) (t : R) : Prop := mkLinalF {
  lf_slack : 0 <= t;
  lf_zero_1 : forall a : binary_float p e, is_finite a = true -> isZero L (leps L) a = true -> Rabs (B2R a) <= t;
  lf_zero_0 : forall a : binary_float p e, is_finite a = true -> B2R a = 0 -> isZero L (leps L) a = true;
  lf_less_1 : forall a b : binary_float p e, is_finite a = true -> is_finite b = true ->
    isLess L (leps L) a b = true -> B2R a < B2R b;
  lf_less_0 : forall a b : binary_float p e, is_finite a = true -> is_finite b = true ->
    B2R a + t < B2R b -> isLess L (leps L) a b = true;
  lf_greater_1 : forall a b : binary_float p e, is_finite a = true -> is_finite b = true ->
    isGreater L (leps L) a b = true -> B2R b < B2R a;
  lf_greater_0 : forall a b : binary_float p e, is_finite a = true -> is_finite b = true ->
    B2R b + t < B2R a -> isGreater L (leps L) a b = true;
  lf_lesseq_1 : forall a b : binary_float p e, is_finite a = true -> is_finite b = true ->
    isLessEq L (leps L) a b = true -> B2R a <= B2R b + t;
  lf_lesseq_0 : forall a b : binary_float p e, is_finite a = true -> is_finite b = true ->
    B2R a <= B2R b -> isLessEq L (leps L) a b = true;
  lf_greatereq_1 : forall a b : binary_float p e, is_finite a = true -> is_finite b = true ->
    isGreaterEq L (leps L) a b = true -> B2R b - t <= B2R a;
  lf_greatereq_0 : forall a b : binary_float p e, is_finite a = true -> is_finite b = true ->
    B2R b <= B2R a -> isGreaterEq L (leps L) a b = true
}.

(** ** Rays and boxes.  [gamma3] bounds the relative error of three roundings,
    [tiny] is the smallest positive number. *)
Definition gamma3 (p : Z) : R := (1 + bpow radix2 (- p)) ^ 3 - 1.
Definition tiny (p e : Z) : R := bpow radix2 (3 - e - p).
(** rounding margin at the plane with coordinate [c], for a ray with origin [o] and direction [d] on this axis *)
Definition slab_margin (p e : Z) (o d c : R) : R := gamma3 p * Rabs (c - o) + tiny p e * Rabs d.
(** no overflow: the direction component and the way to the plane are not extreme *)
Definition slab_range (e : Z) (o d c : R) : Prop :=
  bpow radix2 (3 - e) <= Rabs d <= bpow radix2 (e - 3) /\
  Rabs (c - o) <= bpow radix2 (e - 4) /\ Rabs (c - o) <= bpow radix2 (e - 4) * Rabs d.

(** ** Distinct points.  The two points differ by at least [2^k] on one axis. *)
Definition apart {p e n} (k : Z) (x y : vec (binary_float p e) n) : Prop :=
  exists i, (i < n)%nat /\ bpow radix2 k <= Rabs (fval i x - fval i y).
(** the points are finite and different ones are apart; the square of the distance
    [2^k] is not below the smallest positive number *)
Definition well_separated {p e n} (k : Z) (G : vec (binary_float p e) n -> Prop) : Prop :=
  (3 - e - p <= 2 * k)%Z /\ (forall x, G x -> finite_pt x) /\ (forall x y, G x -> G y -> x = y \/ apart k x y).
