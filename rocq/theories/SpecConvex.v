(** * Specification vocabulary: sides of facets *)

From Coq Require Import Reals List.
From Verif Require Import Scalar Linal SpecReal ModelMesh SpecTess.
Local Open Scope R_scope.

(** [c] does not lie in front of the triangle, where front is the side from which
    its corners appear counter-clockwise *)
Definition behind (q0 q1 q2 c : vec R 3) : Prop :=
  0 <= rdot (rcross (rsub q1 q0) (rsub q2 q0)) (rsub q0 c).
(** [c] does not lie behind the triangle *)
Definition in_front (q0 q1 q2 c : vec R 3) : Prop :=
  rdot (rcross (rsub q1 q0) (rsub q2 q0)) (rsub q0 c) <= 0.

(** [c] lies in the polyhedron bounded by the planes of the facets *)
Definition enclosed {M} (m : mesh (RS M)) (c : vec R 3) : Prop :=
  forall f, In f (m_facets m) -> exists q0 q1 q2, facet_triangle m f = Some (q0, q1, q2) /\ behind q0 q1 q2 c.
Definition excluded {M} (m : mesh (RS M)) (c : vec R 3) : Prop :=
  forall f, In f (m_facets m) -> exists q0 q1 q2, facet_triangle m f = Some (q0, q1, q2) /\ in_front q0 q1 q2 c.

(** the solid cylinder and the solid cone with axis from [s] to [t]: seen from the
    point of the axis at the same height *)
Definition solid_cylinder (s t : vec R 3) (r : R) (q : vec R 3) : Prop :=
  exists u, 0 <= u <= 1 /\ rdot (rsub q (along s (rsub t s) u)) (rsub t s) = 0 /\ rdist q (along s (rsub t s) u) <= r.
Definition solid_cone (s t : vec R 3) (r : R) (q : vec R 3) : Prop :=
  exists u, 0 <= u <= 1 /\ rdot (rsub q (along s (rsub t s) u)) (rsub t s) = 0 /\ rdist q (along s (rsub t s) u) <= r * (1 - u).
(** the solid parallelepiped *)
Definition solid_cuboid (o x y z q : vec R 3) : Prop :=
  exists a b c, 0 <= a <= 1 /\ 0 <= b <= 1 /\ 0 <= c <= 1 /\ q = cuboid_point o x y z a b c.
