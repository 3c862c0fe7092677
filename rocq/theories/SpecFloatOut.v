(** * Specification of outward orientation, in floating point *)

From Coq Require Import List Reals ZArith.
From Flocq Require Import Core.Zaux Core.Raux Core.FLX IEEE754.BinarySingleNaN.
From Verif Require Import Scalar Linal Result SpecReal SpecIEEE SpecFloatErr ModelMesh SpecTess.
Local Open Scope R_scope.

(** Every facet has three finite corners whose triangle turns counter-clockwise when
    looked at from outside, with [c] inside, in exact arithmetic; and the normal that
    the code computes for it is finite, of length one up to rounding, and points away
    from [c] at every corner of the facet. *)
Definition float_outward {p e} {Hp : Prec_gt_0 p} {He : Prec_lt_emax p e} {f g h : binary_float p e -> binary_float p e} {pi : binary_float p e}
    (self : addr) (m : mesh (IEEE p e Hp He f g h pi)) (c : vec R 3) : Prop :=
  forall k fa, nth_error (m_facets m) k = Some fa ->
    (exists q0 q1 q2 : vec (binary_float p e) 3, @facet_triangle (IEEE p e Hp He f g h pi) m fa = Some (q0, q1, q2) /\
       finite_pt q0 /\ finite_pt q1 /\ finite_pt q2 /\ faces_away c (vreal q0) (vreal q1) (vreal q2)) /\
    exists n : vec (binary_float p e) 3, calc_facet_normal (only self m) fa = Ok n /\ finite_pt n /\
      Rabs (rnorm (vreal n) - 1) <= 6 * uround p /\
      forall i he (q : vec (binary_float p e) 3), nth_error (m_halfedges m) i = Some he -> he_facet he = k ->
        nth_error (m_points m) (he_vertex he) = Some q -> 0 < rdot (vreal n) (rsub (vreal q) c).

(** a scale [2^K] that suits points up to [s] from a centre and tetrahedra over the
    facets with at least [v] for six times the volume: edges between [2^-K] and [2^K] *)
Definition scale_frame (p e K : Z) (s v : R) : Prop :=
  (0 <= K)%Z /\ (4 * K + 2 * p + 6 <= e)%Z /\ 4 * s <= bpow radix2 K /\ 6 * (s * s) * bpow radix2 (- K) <= v.
