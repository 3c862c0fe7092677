(** * Specification of facet and vertex normals, approximately *)

From Coq Require Import List Reals ZArith.
From Flocq Require Import Core.Zaux Core.Raux Core.FLX IEEE754.BinarySingleNaN.
From Verif Require Import Scalar Linal SpecReal SpecIEEE SpecFloatErr SpecFloatSkew ModelMesh.
Local Open Scope R_scope.

(** the points at the three halfedges of facet [k] *)
Definition facet_points {S : Scalar} (m : mesh S) (k : nat) (p0 p1 p2 : vec S 3) : Prop :=
  exists h0 h1 h2, nth_error (m_halfedges m) (3 * k) = Some h0 /\ nth_error (m_halfedges m) (3 * k + 1) = Some h1 /\ nth_error (m_halfedges m) (3 * k + 2) = Some h2 /\
    nth_error (m_points m) (he_vertex h0) = Some p0 /\ nth_error (m_points m) (he_vertex h1) = Some p1 /\ nth_error (m_points m) (he_vertex h2) = Some p2.

(** the sine of the angle at the second corner *)
Definition corner_sine (p0 p1 p2 : vec R 3) : R := sine (rsub p1 p0) (rsub p2 p1).

(** edges of moderate length, and not a sliver for this precision *)
Definition triangle_frame (p e k : Z) (p0 p1 p2 : vec R 3) : Prop :=
  (0 <= k)%Z /\ (4 * k + 2 * p + 6 <= e)%Z /\
  bpow radix2 (- k) <= rdist p1 p0 <= bpow radix2 k /\ bpow radix2 (- k) <= rdist p2 p1 <= bpow radix2 k /\
  40 * uround p <= corner_sine p0 p1 p2.

(** error of a computed facet normal, and of the same normal normalised again *)
Definition facet_bound (p : Z) (s : R) : R := 24 * uround p / s.
Definition facet_bound2 (p : Z) (s : R) : R := 36 * uround p / s.

(** every facet at vertex [v] is a proper triangle, with the sine of its corner angle at
    least [sg], and faces the side of [w], by at least [mu] *)
Definition faces_side {p e} {Hp : Prec_gt_0 p} {He : Prec_lt_emax p e} {f g h : binary_float p e -> binary_float p e} {pi : binary_float p e}
    (m : mesh (IEEE p e Hp He f g h pi)) (v : nat) (w : vec R 3) (mu sg : R) : Prop :=
  forall k c he, (c < 3)%nat -> nth_error (m_halfedges m) (3 * k + c) = Some he -> he_vertex he = v ->
    exists (p0 p1 p2 : vec (binary_float p e) 3) K N, @facet_points (IEEE p e Hp He f g h pi) m k p0 p1 p2 /\ finite_pt p0 /\ finite_pt p1 /\ finite_pt p2 /\
      triangle_frame p e K (vreal p0) (vreal p1) (vreal p2) /\ sg <= corner_sine (vreal p0) (vreal p1) (vreal p2) /\
      unit_normal N (vreal p0) (vreal p1) (vreal p2) /\ mu <= rdot N w.
