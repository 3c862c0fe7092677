(** * Specification vocabulary: the normals that are computed for the vertices *)

From Coq Require Import Reals List.
From Verif Require Import Scalar Linal Result SpecReal ModelMesh SpecMesh.
Local Open Scope R_scope.

(** The code computes one normal per vertex, each a unit vector; [P q n] holds of the
    normal [n] at the point [q] of its vertex. *)
Definition vertex_normals {M} (L : Linal (RS M)) (self : addr) (m : mesh (RS M)) (P : vec R 3 -> vec R 3 -> Prop) : Prop :=
  exists ns : list (vec R 3), calc_vertex_normals L (only self m) m = Ok ns /\ length ns = length (m_points m) /\
    forall v (n q : vec R 3), nth_error ns v = Some n -> nth_error (m_points m) v = Some q -> rnorm n = 1 /\ P q n.

(** the same for the facets, at each of their corners *)
Definition facet_normals {M} (self : addr) (m : mesh (RS M)) (P : vec R 3 -> vec R 3 -> Prop) : Prop :=
  forall k f, nth_error (m_facets m) k = Some f -> exists n : vec R 3, calc_facet_normal (only self m) f = Ok n /\ rnorm n = 1 /\
    forall i h q, nth_error (m_halfedges m) i = Some h -> he_facet h = k -> nth_error (m_points m) (he_vertex h) = Some q -> P q n.
