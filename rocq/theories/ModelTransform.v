(** * Transformations (src/include/Geometry/Transform)

    [linal::hmat<T>] (a 4x4 matrix, given by its rows) and [linal::hvec<T>] are
    part of the external library linal; its operations used here are taken to be
    the mathematical ones:
    - [hmat * hvec] is the product of matrix and column vector;
    - [to_hvec<T,D>] fills up with zeros and sets the last component to 1;
    - [to_vec<T,D>] keeps the first D components (the last one is dropped, not
      divided by);
    - [hmat::identity()], and [set_translation], which writes the first three
      entries of the last column.

    transform(Cuboid) (TransformCuboid.hpp:11-16) does not compile (it uses an
    undeclared D) and is not modelled. *)

From Coq Require Import List Arith Bool.
From Verif Require Import Scalar Linal Result ModelShapes ModelBox.
Import ListNotations.
Local Open Scope scalar_scope.

Definition hvec (A : Type) := vec A 4.
Definition hmat (A : Type) := vec (vec A 4) 4.
Definition mk4 {A} (x y z w : A) : vec A 4 := (x, (y, (z, (w, tt)))).

(** the vector with the components f 0, ..., f (n-1) *)
Fixpoint vbuild {A} (n : nat) (f : nat -> A) : vec A n :=
  match n with
  | O => tt
  | Datatypes.S m => (f 0%nat, vbuild m (fun i => f (Datatypes.S i)))
  end.

Section Transform.
  Context {S : Scalar} (L : Linal S).

  Definition hmul (m : hmat S) (v : hvec S) : hvec S := vmap (fun row => dot row v) m.
  Definition to_hvec {n} (v : vec S n) : hvec S := mk4 (vnth s0 0 v) (vnth s0 1 v) (vnth s0 2 v) s1.
  Definition to_vec (n : nat) (v : hvec S) : vec S n := vbuild n (fun i => vnth s0 i v).
  Definition hidentity : hmat S :=
    mk4 (mk4 s1 s0 s0 s0) (mk4 s0 s1 s0 s0) (mk4 s0 s0 s1 s0) (mk4 s0 s0 s0 s1).
  Definition set_translation (m : hmat S) (t : vec S 3) : hmat S :=
    let '(r0, (r1, (r2, (r3, _)))) := m in
    let '(t0, (t1, (t2, _))) := t in
    let upd (r : vec S 4) (x : S) := let '(a, (b, (c, _))) := r in mk4 a b c x in
    mk4 (upd r0 t0) (upd r1 t1) (upd r2 t2) r3.

  (** transform(vec) (TransformVec.hpp:13-17), D = 2 or 3 *)
  Definition transform_vec {n} (v : vec S n) (m : hmat S) : vec S n := to_vec n (hmul m (to_hvec v)).

  (** transform(AABB) (TransformAABB.hpp:13-18), D = 2 or 3; the constructor of
      AABB asserts validity *)
  Definition transform_aabb (dbg : bool) {n} (b : aabb S n) (m : hmat S) : res (aabb S n) :=
    let mn := hmul m (to_hvec (a_min b)) in
    let mx := hmul m (to_hvec (a_max b)) in
    aabb_make L dbg (to_vec n mn) (to_vec n mx).

  (** transform(Circle2) (TransformCircle.hpp:12-18); the constructor of Circle2
      asserts the radius *)
  Definition transform_circle2 (dbg : bool) (c : circle2 S) (m : hmat S) : res (circle2 S) :=
    let o := c2_origin c in
    let v : vec S 3 := transform_vec (mk3 (vnth s0 0 o) (vnth s0 1 o) s0) m in
    circle2_make dbg (mk2 (vnth s0 0 v) (vnth s0 1 v)) (c2_radius c).

  (** transform(Circle3) (TransformCircle.hpp:20-24) *)
  Definition transform_circle3 (c : circle3 S) (m : hmat S) : circle3 S :=
    mkCircle3 (transform_vec (c3_origin c) m) (c3_radius c) (c3_normal c).

  (** transform(Segment3) (TransformSegment.hpp:13-19) *)
  Definition transform_segment (s : segment S 3) (m : hmat S) : segment S 3 :=
    let source := hmul m (to_hvec (g_source s)) in
    let target := hmul m (to_hvec (g_target s)) in
    mkSegment (to_vec 3 source) (to_vec 3 target).

  (** transform(Cone) (TransformCone.hpp:12-16) *)
  Definition transform_cone (c : cone S) (m : hmat S) : cone S :=
    mkCone (transform_segment (co_segment c) m) (co_radius c).
  (** transform(Cylinder) (TransformCylinder.hpp:12-16) *)
  Definition transform_cylinder (c : cylinder S) (m : hmat S) : cylinder S :=
    mkCylinder (transform_segment (cy_segment c) m) (cy_radius c).
  (** transform(Sphere) (TransformSphere.hpp:12-16) *)
  Definition transform_sphere (s : sphere S) (m : hmat S) : sphere S :=
    mkSphere (transform_vec (s_origin s) m) (s_radius s).
End Transform.
