(** * Specification of the closest points of two lines in space, approximately *)

From Coq Require Import Reals ZArith.
From Flocq Require Import Core.Zaux Core.Raux IEEE754.BinarySingleNaN.
From Verif Require Import Scalar Linal SpecReal SpecIEEE SpecFloatErr.
Local Open Scope R_scope.

(** the lines from [o] along [d] and from [o'] along [d'] are closest at the parameters
    [T] and [T'] *)
Definition feet (o d o' d' : vec R 3) (T T' : R) : Prop :=
  forall x y, rdist (along o d T) (along o' d' T') <= rdist (along o d x) (along o' d' y).

(** the sine of the angle between two directions *)
Definition sine (d d' : vec R 3) : R := rnorm (rcross d d') / (rnorm d * rnorm d').

(** lengths of moderate size: between [2^-k] and [2^k], [k] less than a quarter of the
    exponent range; [G] bounds the distance of the origins *)
Definition skew_frame (p e k : Z) (G : R) (o d o' d' : vec R 3) : Prop :=
  (4 * k + 6 <= e)%Z /\ (2 * k <= e - p)%Z /\
  bpow radix2 (- k) <= rnorm d <= bpow radix2 k /\ bpow radix2 (- k) <= rnorm d' <= bpow radix2 k /\
  bpow radix2 (- k) <= G <= bpow radix2 k /\ rdist o o' <= G.

(** error of the denominator, which is the square of [|d| |d'| sine] *)
Definition denom_bound (p : Z) (d d' : vec R 3) : R := 46 * uround p * (rdot d d * rdot d' d').

(** the lines are not nearly parallel: the denominator is twice as large as its error *)
Definition clearly_skew (p : Z) (d d' : vec R 3) : Prop := 92 * uround p <= sine d d' * sine d d'.

(** how far the computed closest points are from the closest points, along the lines *)
Definition feet_bound (p : Z) (G : R) (d d' : vec R 3) : R := 190 * uround p * G / (sine d d' * sine d d' * sine d d').

(** how far a computed closest point is from the closest point of the line from [o] *)
Definition foot_point_bound (p e : Z) (G : R) (d d' o : vec R 3) : R :=
  feet_bound p G d d' + uround p * (rnorm o + 20 * (G / sine d d')) + 6 * uflow p e.

(** how far apart the computed closest points of two lines that meet seem to be *)
Definition meet_bound (p e : Z) (G : R) (o d o' d' : vec R 3) : R :=
  2 * (foot_point_bound p e G d d' o + foot_point_bound p e G d d' o') + 4 * sqrt (uflow p e).
