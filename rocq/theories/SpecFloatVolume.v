(** * Specification of the volume of a mesh with floating-point vertices *)

From Coq Require Import List Reals ZArith.
From Flocq Require Import IEEE754.BinarySingleNaN.
From Verif Require Import Scalar Linal SpecReal SpecIEEE SpecFloatErr ModelMesh SpecMesh SpecTess.
Local Open Scope R_scope.

(** the exact volume enclosed by the facets of a mesh whose vertices are floating-point
    points: the sum of the signed volumes of the tetrahedra over the facets with apex [c] *)
Definition float_volume {p e Hp He fc fs fa fpi} (c : vec R 3) (m : mesh (IEEE p e Hp He fc fs fa fpi)) : R :=
  sumR (map (fun f => match facet_triangle m f with
                      | Some (q0, q1, q2) =>
                          rdot (rcross (rsub (vreal (q0 : vec (binary_float p e) 3)) c) (rsub (vreal (q1 : vec (binary_float p e) 3)) c))
                               (rsub (vreal (q2 : vec (binary_float p e) 3)) c) / 6
                      | None => 0
                      end) (m_facets m)).
