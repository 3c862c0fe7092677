(** * Specification of the arc tangent in floating point *)

From Coq Require Import Reals ZArith.
From Flocq Require Import Core.Zaux Core.Raux IEEE754.BinarySingleNaN.
From Verif Require Import Scalar Linal SpecReal SpecIEEE SpecFloatErr.
Local Open Scope R_scope.

(** the arc tangent of a finite number is finite, with relative error [d] unless it underflows *)
Definition atan_accurate {p e} (d : R) (fatan : binary_float p e -> binary_float p e) : Prop :=
  forall x, is_finite x = true ->
    is_finite (fatan x) = true /\ Rabs (B2R (fatan x) - atan (B2R x)) <= d * Rabs (atan (B2R x)) + uflow p e.
