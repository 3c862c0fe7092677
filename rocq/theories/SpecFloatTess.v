(** * Specification of trigonometric functions and comparisons in floating point *)

From Coq Require Import Reals ZArith.
From Flocq Require Import Core.Zaux Core.Raux IEEE754.BinarySingleNaN.
From Verif Require Import Scalar Linal SpecReal ModelTransform SpecIEEE SpecFloatErr.
Local Open Scope R_scope.

(** cosine, sine and the constant pi have an absolute error of a few times [d],
    which is not below the error of one rounding.  Only angles up to 16 matter;
    for functions rounded correctly twice [uround p] will do. *)
Record trig_accurate {p e} (d : R) (fcos fsin : binary_float p e -> binary_float p e) (fpi : binary_float p e) : Prop := mkTrig {
  ta_round : uround p <= d;
  ta_pi : is_finite fpi = true /\ Rabs (B2R fpi - PI) <= 4 * d;
  ta_cos : forall x, is_finite x = true -> Rabs (B2R x) <= 16 ->
    is_finite (fcos x) = true /\ Rabs (B2R (fcos x) - cos (B2R x)) <= d;
  ta_sin : forall x, is_finite x = true -> Rabs (B2R x) <= 16 ->
    is_finite (fsin x) = true /\ Rabs (B2R (fsin x) - sin (B2R x)) <= d }.

(** [operator==] on vectors recognises equal vectors, and says so only of vectors
    with coordinates at most [t] apart *)
Record equal_within {p e Hp He f g h pi} (L : Linal (IEEE p e Hp He f g h pi)) (t : R) : Prop := mkWithin {
  ew_slack : 0 <= t;
  ew_refl : forall n (x : vec (binary_float p e) n), finite_pt x -> veq L x x = true;
  ew_close : forall n (x y : vec (binary_float p e) n), finite_pt x -> finite_pt y -> veq L x y = true ->
    forall i, (i < n)%nat -> Rabs (fval i x - fval i y) <= t }.

(** every coordinate of [x] is within [c] of the corresponding one of [q] *)
Definition close_to {p e n} (c : R) (x : vec (binary_float p e) n) (q : vec R n) : Prop :=
  finite_pt x /\ forall i, (i < n)%nat -> Rabs (fval i x - vnth 0 i q) <= c.

(** entry of a homogeneous matrix *)
Definition entry {p e} (i j : nat) (X : hmat (binary_float p e)) : binary_float p e :=
  let z := B754_zero false in vnth z j (vnth (mk4 z z z z) i X).

(** the upper left 3x3 part of [X] is the matrix [A] (given by its rows) up to [d] *)
Definition rotation_within {p e} (d : R) (A : vec (vec R 3) 3) (X : hmat (binary_float p e)) : Prop :=
  forall i j, (i < 3)%nat -> (j < 3)%nat ->
    is_finite (entry i j X) = true /\ Rabs (B2R (entry i j X) - vnth 0 j (vnth rzero i A)) <= d.

(** [operator==] on matrices takes only matrices within [t] of the identity for it *)
Definition identity_within {p e Hp He f g h pi} (meq : hmat (IEEE p e Hp He f g h pi) -> hmat (IEEE p e Hp He f g h pi) -> bool) (t : R) : Prop :=
  forall X, meq X hidentity = true -> forall i j, (i < 4)%nat -> (j < 4)%nat ->
    Rabs (B2R (entry i j (X : hmat (binary_float p e))) - if Nat.eqb i j then 1 else 0) <= t.
