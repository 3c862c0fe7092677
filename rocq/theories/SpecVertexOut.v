(** * Specification: the vertex normals of a mesh point away from a point *)

From Coq Require Import List Reals ZArith.
From Flocq Require Import Core.Zaux Core.Raux Core.FLX IEEE754.BinarySingleNaN.
From Verif Require Import Scalar Linal Result SpecReal SpecIEEE SpecFloatErr ModelMesh.
Local Open Scope R_scope.

(** The code computes one normal per vertex; each is a unit vector and points away
    from [c] at the position of its vertex. *)
Definition vertices_outward {M} (L : Linal (RS M)) (self : addr) (m : mesh (RS M)) (c : vec R 3) : Prop :=
  exists ns : list (vec R 3), calc_vertex_normals L (only self m) m = Ok ns /\ length ns = length (m_points m) /\
    forall v (n q : vec R 3), nth_error ns v = Some n -> nth_error (m_points m) v = Some q -> rnorm n = 1 /\ 0 < rdot n (rsub q c).
(** the same, pointing towards [c] *)
Definition vertices_inward {M} (L : Linal (RS M)) (self : addr) (m : mesh (RS M)) (c : vec R 3) : Prop :=
  exists ns : list (vec R 3), calc_vertex_normals L (only self m) m = Ok ns /\ length ns = length (m_points m) /\
    forall v (n q : vec R 3), nth_error ns v = Some n -> nth_error (m_points m) v = Some q -> rnorm n = 1 /\ rdot n (rsub q c) < 0.

(** In floating point: finite, of length one up to rounding, and pointing away from [c]. *)
Definition float_vertices_outward {p e} {Hp : Prec_gt_0 p} {He : Prec_lt_emax p e} {f g h : binary_float p e -> binary_float p e} {pi : binary_float p e}
    (L : Linal (IEEE p e Hp He f g h pi)) (self : addr) (m : mesh (IEEE p e Hp He f g h pi)) (c : vec R 3) : Prop :=
  exists ns : list (vec (binary_float p e) 3), calc_vertex_normals L (only self m) m = Ok ns /\ length ns = length (m_points m) /\
    forall v (n q : vec (binary_float p e) 3), nth_error ns v = Some n -> nth_error (m_points m) v = Some q ->
      finite_pt n /\ Rabs (rnorm (vreal n) - 1) <= 6 * uround p /\ 0 < rdot (vreal n) (rsub (vreal q) c).
