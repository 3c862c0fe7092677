(** * Specification vocabulary: the area of a triangle mesh *)

From Coq Require Import Reals List.
From Verif Require Import Scalar Linal Result SpecReal ModelMesh SpecTess.
Import ListNotations.
Local Open Scope R_scope.

(** half of the parallelogram spanned by two sides *)
Definition triangle_area (q0 q1 q2 : vec R 3) : R := rnorm (rcross (rsub q1 q0) (rsub q2 q0)) / 2.
(** the sum of the areas of the facets *)
Definition area {M} (m : mesh (RS M)) : R :=
  sumR (map (fun f => match facet_triangle m f with
                      | Some (q0, q1, q2) => triangle_area q0 q1 q2
                      | None => 0
                      end) (m_facets m)).
