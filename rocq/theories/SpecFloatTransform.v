(** * Specification of transformations in floating point *)

From Coq Require Import Reals List ZArith.
From Flocq Require Import Core.Zaux Core.Raux IEEE754.BinarySingleNaN.
From Verif Require Import Scalar Linal SpecReal SpecIEEE SpecFloatErr SpecFloatTess ModelTransform.
Local Open Scope R_scope.

(** the sum of [f 0], ..., [f (n-1)] *)
Definition total (n : nat) (f : nat -> R) : R := fold_right Rplus 0 (map f (seq 0 n)).

(** the [i]-th coordinate of the image of [v] under the matrix [X], without any
    rounding, and the sum of the absolute values of its terms *)
Definition image_coord {p e n} (X : hmat (binary_float p e)) (v : vec (binary_float p e) n) (i : nat) : R :=
  total n (fun j => B2R (entry i j X) * fval j v) + B2R (entry i 3 X).
Definition image_terms {p e n} (X : hmat (binary_float p e)) (v : vec (binary_float p e) n) (i : nat) : R :=
  total n (fun j => Rabs (B2R (entry i j X) * fval j v)) + Rabs (B2R (entry i 3 X)).

(** the first [n] rows of [X] are finite *)
Definition finite_rows {p e} (n : nat) (X : hmat (binary_float p e)) : Prop :=
  forall i j, (i < n)%nat -> (j < 4)%nat -> is_finite (entry i j X) = true.

(** the point [x] lies in the box from [lo] to [hi] *)
Definition in_fbox {p e n} (lo hi x : vec (binary_float p e) n) : Prop :=
  finite_pt x /\ forall i, (i < n)%nat -> fval i lo <= fval i x <= fval i hi.

(** no overflow when [v] is transformed by [X] *)
Definition image_range {p e n} (X : hmat (binary_float p e)) (v : vec (binary_float p e) n) : Prop :=
  finite_pt v /\ forall i, (i < n)%nat -> image_terms X v i <= bpow radix2 (e - 2).
(** [x] is the image of [v] up to a few roundings of the terms *)
Definition image_close {p e n} (X : hmat (binary_float p e)) (v x : vec (binary_float p e) n) : Prop :=
  finite_pt x /\ forall i, (i < n)%nat -> Rabs (fval i x - image_coord X v i) <= 6 * uround p * image_terms X v i + 5 * uflow p e.
