(** * Specification vocabulary: the normals computed in floating point *)

From Coq Require Import List Reals ZArith.
From Flocq Require Import Core.Zaux Core.Raux Core.FLX IEEE754.BinarySingleNaN.
From Verif Require Import Scalar Linal Result SpecReal SpecIEEE SpecFloatErr ModelMesh.
Local Open Scope R_scope.

(** The code computes one normal per vertex, each finite and of length one up to
    rounding; [P q n] holds of the normal [n] at the point [q] of its vertex. *)
Definition float_vertex_normals {p e} {Hp : Prec_gt_0 p} {He : Prec_lt_emax p e} {f g h : binary_float p e -> binary_float p e} {pi : binary_float p e}
    (L : Linal (IEEE p e Hp He f g h pi)) (self : addr) (m : mesh (IEEE p e Hp He f g h pi)) (P : vec R 3 -> vec R 3 -> Prop) : Prop :=
  exists ns : list (vec (binary_float p e) 3), calc_vertex_normals L (only self m) m = Ok ns /\ length ns = length (m_points m) /\
    forall v (n q : vec (binary_float p e) 3), nth_error ns v = Some n -> nth_error (m_points m) v = Some q ->
      finite_pt n /\ Rabs (rnorm (vreal n) - 1) <= 6 * uround p /\ P (vreal q) (vreal n).

(** the same for the facets, at each of their corners *)
Definition float_facet_normals {p e} {Hp : Prec_gt_0 p} {He : Prec_lt_emax p e} {f g h : binary_float p e -> binary_float p e} {pi : binary_float p e}
    (self : addr) (m : mesh (IEEE p e Hp He f g h pi)) (P : vec R 3 -> vec R 3 -> Prop) : Prop :=
  forall k fa, nth_error (m_facets m) k = Some fa -> exists n : vec (binary_float p e) 3, calc_facet_normal (only self m) fa = Ok n /\
    finite_pt n /\ Rabs (rnorm (vreal n) - 1) <= 6 * uround p /\
    forall i he (q : vec (binary_float p e) 3), nth_error (m_halfedges m) i = Some he -> he_facet he = k -> nth_error (m_points m) (he_vertex he) = Some q -> P (vreal q) (vreal n).
