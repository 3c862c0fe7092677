(** * Specification of the area of a mesh with floating-point vertices *)

From Coq Require Import List Reals ZArith.
From Flocq Require Import IEEE754.BinarySingleNaN.
From Verif Require Import Scalar Linal SpecReal SpecIEEE SpecFloatErr ModelMesh SpecMesh SpecTess SpecArea.
Local Open Scope R_scope.

(** the sum of the exact areas of the facets of a mesh whose vertices are
    floating-point points *)
Definition float_area {p e Hp He fc fs fa fpi} (m : mesh (IEEE p e Hp He fc fs fa fpi)) : R :=
  sumR (map (fun f => match facet_triangle m f with
                      | Some (q0, q1, q2) =>
                          triangle_area (vreal (q0 : vec (binary_float p e) 3)) (vreal (q1 : vec (binary_float p e) 3)) (vreal (q2 : vec (binary_float p e) 3))
                      | None => 0
                      end) (m_facets m)).
