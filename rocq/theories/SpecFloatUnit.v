(** * Contracts of the tolerant scalar comparisons, in floating point *)

From Coq Require Import Reals ZArith.
From Flocq Require Import IEEE754.BinarySingleNaN.
From Verif Require Import Scalar Linal SpecIEEE.
Local Open Scope R_scope.

(** [linal::isEq] holds of numbers at most [s] apart *)
Definition scalars_equal_if_within {p e Hp He f g h pi} (L : Linal (IEEE p e Hp He f g h pi)) (s : R) : Prop :=
  forall a b : binary_float p e, is_finite a = true -> is_finite b = true -> Rabs (B2R a - B2R b) <= s -> isEq L (leps L) a b = true.
(** [linal::isZero] holds of no number beyond [t] *)
Definition zero_only_within {p e Hp He f g h pi} (L : Linal (IEEE p e Hp He f g h pi)) (t : R) : Prop :=
  forall a : binary_float p e, is_finite a = true -> isZero L (leps L) a = true -> Rabs (B2R a) <= t.
