(** * Specification of the entry and exit points of a ray and a box in floating point *)

From Coq Require Import Reals ZArith.
From Flocq Require Import Core BinarySingleNaN.
From Verif Require Import Scalar Linal SpecIEEE.
Local Open Scope R_scope.

(** On one axis: origin [o] and direction [d] of the ray, sides [mn] and [mx] of the box. *)

(** the side through which a ray enters resp. leaves the slab *)
Definition entry_side (d mn mx : R) : R := if Rlt_dec 0 d then mn else mx.
Definition exit_side (d mn mx : R) : R := if Rlt_dec 0 d then mx else mn.

(** rounding error of a reported point: eight roundings of the size of the coordinates, and
    four of the smallest positive number *)
Definition hit_err (p e : Z) (o d mn mx : R) : R :=
  8 * bpow radix2 (- p) * (Rabs o + Rmax (Rabs (mn - o)) (Rabs (mx - o))) + 4 * tiny p e * (1 + Rabs d).

(** at the parameter [x] the ray is in the box; in the box made smaller resp. larger by the
    rounding margin on the axes along which the ray moves, and by [t] on the others *)
Definition at_box (o d mn mx : nat -> R) (x : R) : Prop :=
  forall i, (i < 3)%nat -> mn i <= o i + x * d i <= mx i.
Definition deep_in_box (p e : Z) (o d mn mx : nat -> R) (x : R) : Prop :=
  forall i, (i < 3)%nat ->
    (d i = 0 -> mn i <= o i <= mx i) /\
    (d i <> 0 -> mn i + slab_margin p e (o i) (d i) (mn i) <= o i + x * d i <= mx i - slab_margin p e (o i) (d i) (mx i)).
Definition about_box (p e : Z) (t : R) (o d mn mx : nat -> R) (x : R) : Prop :=
  forall i, (i < 3)%nat ->
    (d i = 0 -> mn i - t <= o i <= mx i + t) /\
    (d i <> 0 -> mn i - slab_margin p e (o i) (d i) (mn i) <= o i + x * d i <= mx i + slab_margin p e (o i) (d i) (mx i)).

(** [q] is the point of the ray at [x] up to rounding, in the box up to rounding, and on the
    given side of the box (entry or exit) on one of the axes along which the ray moves *)
Definition hit_point {p e} (t : R) (o d mn mx : nat -> R) (side : R -> R -> R -> R) (q : vec (binary_float p e) 3) (x : R) : Prop :=
  let err i := hit_err p e (o i) (d i) (mn i) (mx i) in
  finite_pt q /\
  (forall i, (i < 3)%nat ->
     (d i = 0 -> fval i q = o i /\ mn i - t <= fval i q <= mx i + t) /\
     (d i <> 0 -> Rabs (fval i q - (o i + x * d i)) <= err i /\ mn i - err i <= fval i q <= mx i + err i)) /\
  exists k, (k < 3)%nat /\ d k <> 0 /\ Rabs (fval k q - side (d k) (mn k) (mx k)) <= err k.
