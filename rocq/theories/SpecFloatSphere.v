(** * Specification of approximate intersections with spheres *)

From Coq Require Import Reals ZArith.
From Flocq Require Import Core.Zaux Core.Raux IEEE754.BinarySingleNaN.
From Verif Require Import Scalar Linal SpecReal SpecIEEE SpecFloatErr SpecFloatPlane.
Local Open Scope R_scope.

Section FloatSphere.
  Context (p e : Z).
  (** the sphere around [c] with radius [r]; the line from [o] with direction [d] *)
  Context (c : vec R 3) (r : R) (o d : vec R 3).

  (** no point of the sphere is farther from [o] than this *)
  Definition reach : R := rdist o c + Rabs r.
  (** the discriminant: [4 |d|^2] times the squared radius minus the squared distance
      of the centre to the line *)
  Definition discr : R :=
    4 * (rdot d (rsub o c) * rdot d (rsub o c) - rdot d d * (rdot (rsub o c) (rsub o c) - r * r)).
  (** its error *)
  Definition discr_bound : R := 200 * uround p * (rdot d d * (reach * reach)).

  (** no intermediate result comes near the overflow threshold [2^e], nor does any
      square vanish *)
  Definition sphere_scene : Prop :=
    bpow radix2 (2 - e) <= rdot d d <= bpow radix2 (e - 6) /\
    bpow radix2 (2 - e) <= r * r /\ bpow radix2 (2 - e) <= rdot d d * (r * r) /\
    reach * reach <= bpow radix2 (e - 6) /\ rdot d d * (reach * reach) <= bpow radix2 (e - 6) /\
    rnorm o <= bpow radix2 (e - 3).

  (** [q] is nearly the point at parameter [T], and this point is nearly on the sphere
      (with an additional slack [sl]) *)
  Definition near_sphere (sl : R) (q : vec R 3) (T : R) : Prop :=
    rdist q (along o d T) <= point_bound p e o d T /\
    Rabs (rdist (along o d T) c - Rabs r) * Rabs r <= sl + 140 * uround p * (reach * reach) /\
    Rabs T * rnorm d <= 3 * reach.
End FloatSphere.

(** [q] is one of the (at most two) points of a result *)
Definition reported {A} (r : option A * option A) (q : A) : Prop := fst r = Some q \/ snd r = Some q.
