(** * Specification of the solid enclosed by a mesh with floating-point vertices *)

From Coq Require Import List Reals ZArith.
From Flocq Require Import IEEE754.BinarySingleNaN.
From Verif Require Import Scalar Linal SpecReal SpecIEEE SpecFloatErr ModelMesh SpecMesh SpecTess SpecConvex.
Local Open Scope R_scope.

(** [c] lies in the polyhedron bounded by the planes through the corners of the facets,
    in exact arithmetic *)
Definition float_enclosed {p e Hp He fc fs fa fpi} (m : mesh (IEEE p e Hp He fc fs fa fpi)) (c : vec R 3) : Prop :=
  forall f, In f (m_facets m) -> exists q0 q1 q2 : vec (binary_float p e) 3,
    @facet_triangle (IEEE p e Hp He fc fs fa fpi) m f = Some (q0, q1, q2) /\ behind (vreal q0) (vreal q1) (vreal q2) c.

(** [q] moved towards [o], to [1 - w] times its distance *)
Definition toward (o : vec R 3) (w : R) (q : vec R 3) : vec R 3 := along o (rsub q o) (1 - w).
