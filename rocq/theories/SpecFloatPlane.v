(** * Specification of approximate intersections with planes (and lines of the plane) *)

From Coq Require Import Reals ZArith.
From Flocq Require Import Core.Zaux Core.Raux IEEE754.BinarySingleNaN.
From Verif Require Import Scalar Linal SpecReal SpecIEEE SpecFloatErr.
Local Open Scope R_scope.

Section FloatPlane.
  Context (p e : Z).
  (** the plane through [po] with normal [nrm]; the line from [o] with direction [d] *)
  Context {n : nat} (po nrm o d : vec R n).

  (** error of the slope [d . nrm] *)
  Definition slope_bound : R := 7 * uround p * (rnorm d * rnorm nrm) + 4 * uflow p e.
  (** error of a point at parameter [T]: a few units in the last place of what is added *)
  Definition point_bound (T : R) : R := uround p * (rnorm o + 5 * (Rabs T * rnorm d)) + 6 * uflow p e.
  (** how far off the plane the point at parameter [T] is, times the length of the
      normal: a few units in the last place of the distances to [o] *)
  Definition plane_bound (T : R) : R :=
    7 * uround p * rnorm nrm * (Rabs T * rnorm d + rdist po o) + uflow p e * (4 * Rabs T + 3 * (rnorm d * rnorm nrm) + 5).

  (** [q] is nearly the point at parameter [T], and this point is nearly on the plane *)
  Definition near_hit (q : vec R n) (T : R) : Prop :=
    rdist q (along o d T) <= point_bound T /\
    Rabs (rdot nrm (rsub (along o d T) po)) <= plane_bound T.

  (** no intermediate result comes near the overflow threshold [2^e] *)
  Definition roomy : Prop :=
    rnorm d * rnorm nrm <= bpow radix2 (e - 3) /\ rdist po o <= bpow radix2 (e - 2) /\
    rdist po o * rnorm nrm <= bpow radix2 (e - 3) /\
    rdist po o * rnorm nrm + 1 <= bpow radix2 (e - 3) * Rabs (rdot d nrm).
End FloatPlane.

(** the normal of the line of the plane with direction [w] *)
Definition perp (w : vec R 2) : vec R 2 := mk2 (fst (snd w)) (- fst w).

(** two segments of the plane from [a] along [d] and from [a'] along [d']: no
    intermediate result of their intersection comes near the overflow threshold, and
    the determinant is clearly greater than its error *)
Definition crossing_scene (p e : Z) (a d a' d' : vec R 2) : Prop :=
  roomy e a' (perp d') a d /\ roomy e a (perp d) a' d' /\
  rnorm d <= bpow radix2 (e - 2) /\ rnorm d' <= bpow radix2 (e - 2) /\
  2 * slope_bound p e (perp d') d < Rabs (det2 d d').

(** how far apart the computed points of both segments are at most, for parameters
    [T] and [T'] *)
Definition gap_bound (p e : Z) (a d a' d' : vec R 2) (T T' : R) : R :=
  (rnorm d * plane_bound p e a' (perp d') a d T + rnorm d' * plane_bound p e a (perp d) a' d' T') / Rabs (det2 d d').
