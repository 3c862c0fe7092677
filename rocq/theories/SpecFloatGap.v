(** * Specification of distances between lines, rays and segments, approximately *)

From Coq Require Import Reals ZArith.
From Flocq Require Import Core.Zaux Core.Raux IEEE754.BinarySingleNaN.
From Verif Require Import Scalar Linal SpecReal SpecIEEE SpecFloatErr SpecFloatPlane SpecFloatSkew.
Local Open Scope R_scope.

(** a direction of length one up to roundings, as C65 proves of stored directions *)
Definition unit_near (p : Z) {n} (d : vec R n) : Prop := Rabs (rnorm d - 1) <= 6 * uround p.

(** error of a distance between points of two lines found from their closest points *)
Definition gap_bound (p e : Z) (G : R) (o d o' d' : vec R 3) : R :=
  3 * (foot_point_bound p e G d d' o + foot_point_bound p e G d d' o') + 6 * sqrt (uflow p e).

(** the squared distances do not overflow *)
Definition gap_room (p e : Z) (G : R) (o d o' d' : vec R 3) : Prop :=
  let x := G + foot_point_bound p e G d d' o + foot_point_bound p e G d d' o' in x * x <= bpow radix2 (e - 4).

(** error of a distance of two lines found from the common perpendicular *)
Definition line_gap_bound (p e : Z) (o d o' d' : vec R 3) : R :=
  (40 * uround p * rdist o o' + 5 * uflow p e) / sine d d'.

(** error of a length found to be [x] *)
Definition length_bound (p e : Z) (x : R) : R := 7 * uround p * x + 3 * sqrt (uflow p e).
