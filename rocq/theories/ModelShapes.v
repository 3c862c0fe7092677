(** * Geometric primitives *)

From Coq Require Import List Arith Bool.
From Verif Require Import Scalar Linal Result.
Import ListNotations.
Local Open Scope scalar_scope.

Section Shapes.
  Context {S : Scalar} (L : Linal S).

  (** ** Line (Line.hpp:12-32) *)
  Record line (n : nat) := mkLine { l_origin : vec S n; l_dir : vec S n }.
  Arguments mkLine {n} _ _.
  Arguments l_origin {n} _.
  Arguments l_dir {n} _.

  (** Line(origin, direction) (Line.hpp:18-22) *)
  Definition line_make {n} (o d : vec S n) : line n := mkLine o (normalize d).
  (** operator== (Line.hpp:27-30) *)
  Definition line_eq {n} (a b : line n) : bool :=
    is_equal L (l_origin a) (l_origin b) && is_equal L (l_dir a) (l_dir b).

  (** ** Ray (Ray.hpp:15-38) *)
  Record ray (n : nat) := mkRay { r_origin : vec S n; r_dir : vec S n }.
  Arguments mkRay {n} _ _.
  Arguments r_origin {n} _.
  Arguments r_dir {n} _.

  (** Ray(origin, direction) (Ray.hpp:20-25) *)
  Definition ray_make (dbg : bool) {n} (o d : vec S n) : res (ray n) :=
    let r := mkRay o (normalize d) in
    let* _ := geo_assert dbg (leps L <? vlength d) in
    Ok r.
  (** set_origin, set_direction (Ray.hpp:30-31) *)
  Definition ray_set_origin {n} (r : ray n) (o : vec S n) : ray n := mkRay o (r_dir r).
  Definition ray_set_direction {n} (r : ray n) (d : vec S n) : ray n := mkRay (r_origin r) d.
  (** operator== (Ray.hpp:33-36) *)
  Definition ray_eq {n} (a b : ray n) : bool :=
    is_equal L (r_origin a) (r_origin b) && is_equal L (r_dir a) (r_dir b).

  (** ** Plane (Plane.hpp:13-34) *)
  Record plane := mkPlane { p_origin : vec S 3; p_normal : vec S 3 }.
  (** Plane(origin, normal) (Plane.hpp:20-24) *)
  Definition plane_make (o nrm : vec S 3) : plane := mkPlane o (normalize nrm).
  (** operator== (Plane.hpp:29-32) *)
  Definition plane_eq (a b : plane) : bool :=
    is_equal L (p_origin a) (p_origin b) && is_equal L (p_normal a) (p_normal b).

  (** ** Segment (Segment.hpp:15-43); the constructor and the setters
      (Segment.hpp:22-32) are the record operations *)
  Record segment (n : nat) := mkSegment { g_source : vec S n; g_target : vec S n }.
  Arguments mkSegment {n} _ _.
  Arguments g_source {n} _.
  Arguments g_target {n} _.

  Definition segment_set_source {n} (s : segment n) (p : vec S n) : segment n := mkSegment p (g_target s).
  Definition segment_set_target {n} (s : segment n) (p : vec S n) : segment n := mkSegment (g_source s) p.
  (** length (Segment.hpp:34) *)
  Definition segment_length {n} (s : segment n) : S := vlength (vsub (g_target s) (g_source s)).
  (** direction (Segment.hpp:35) *)
  Definition segment_direction {n} (s : segment n) : vec S n := normalize (vsub (g_target s) (g_source s)).
  (** operator== (Segment.hpp:37-40) *)
  Definition segment_eq {n} (a b : segment n) : bool :=
    is_equal L (g_source a) (g_source b) && is_equal L (g_target a) (g_target b).

  (** ** Sphere (Sphere.hpp:14-41); constructor and setters store their arguments *)
  Record sphere := mkSphere { s_origin : vec S 3; s_radius : S }.
  (** contains (Sphere.hpp:31-34) *)
  Definition sphere_contains (s : sphere) (v : vec S 3) : bool :=
    negb (isGreater L (leps L) (vlength (vsub v (s_origin s))) (s_radius s)).
  (** operator== (Sphere.hpp:36-39) *)
  Definition sphere_eq (a b : sphere) : bool :=
    is_equal L (s_origin a) (s_origin b) && isEq L (leps L) (s_radius a) (s_radius b).

  (** ** Circle2 (Circle.hpp:16-43) *)
  Record circle2 := mkCircle2 { c2_origin : vec S 2; c2_radius : S }.
  (** Circle2(origin, radius) (Circle.hpp:21-26) *)
  Definition circle2_make (dbg : bool) (o : vec S 2) (r : S) : res circle2 :=
    let* _ := geo_assert dbg (s0 <=? r) in Ok (mkCircle2 o r).
  (** set_radius (Circle.hpp:32-36) *)
  Definition circle2_set_radius (dbg : bool) (c : circle2) (r : S) : res circle2 :=
    let* _ := geo_assert dbg (s0 <=? r) in Ok (mkCircle2 (c2_origin c) r).
  (** operator== (Circle.hpp:38-41) *)
  Definition circle2_eq (a b : circle2) : bool :=
    is_equal L (c2_origin a) (c2_origin b) && isEq L (leps L) (c2_radius a) (c2_radius b).

  (** ** Circle3 (Circle.hpp:49-83); the constructor (lines 55-60) checks nothing *)
  Record circle3 := mkCircle3 { c3_origin : vec S 3; c3_radius : S; c3_normal : vec S 3 }.
  (** set_radius (Circle.hpp:67-71) *)
  Definition circle3_set_radius (dbg : bool) (c : circle3) (r : S) : res circle3 :=
    let* _ := geo_assert dbg (s0 <=? r) in Ok (mkCircle3 (c3_origin c) r (c3_normal c)).
  (** set_normal (Circle.hpp:72-76) *)
  Definition circle3_set_normal (dbg : bool) (c : circle3) (nrm : vec S 3) : res circle3 :=
    let* _ := geo_assert dbg (isEq L (leps L) (vlength nrm) s1) in
    Ok (mkCircle3 (c3_origin c) (c3_radius c) nrm).
  (** operator== (Circle.hpp:78-81) *)
  Definition circle3_eq (a b : circle3) : bool :=
    is_equal L (c3_origin a) (c3_origin b) && isEq L (leps L) (c3_radius a) (c3_radius b)
    && is_equal L (c3_normal a) (c3_normal b).

  (** ** Cone (Cone.hpp:11-44) *)
  Record cone := mkCone { co_segment : segment 3; co_radius : S }.
  (** Cone(circleMidPoint, peak, radius) (Cone.hpp:16-20) *)
  Definition cone_make (mid peak : vec S 3) (r : S) : cone := mkCone (mkSegment mid peak) r.
  (** get_height, get_slant_height, get_opening_angle (Cone.hpp:34-40) *)
  Definition cone_height (c : cone) : S := segment_length (co_segment c).
  Definition cone_slant_height (c : cone) : S :=
    let h := cone_height c in ssqrt (co_radius c * co_radius c + h * h).
  Definition cone_opening_angle (c : cone) : S := satan (co_radius c / cone_height c) * (s1 + s1).
  (** operator== (Cone.hpp:42) *)
  Definition cone_eq (a b : cone) : bool :=
    segment_eq (co_segment a) (co_segment b) && isEq L (leps L) (co_radius a) (co_radius b).

  (** ** Cylinder (Cylinder.hpp:12-32) *)
  Record cylinder := mkCylinder { cy_segment : segment 3; cy_radius : S }.
  (** height (Cylinder.hpp:25) *)
  Definition cylinder_height (c : cylinder) : S := segment_length (cy_segment c).
  (** operator== (Cylinder.hpp:27-30) *)
  Definition cylinder_eq (a b : cylinder) : bool :=
    segment_eq (cy_segment a) (cy_segment b) && isEq L (leps L) (cy_radius a) (cy_radius b).

  (** ** Cuboid (Cuboid.hpp:14-53); the array of side vectors is three fields *)
  Record cuboid := mkCuboid { cu_origin : vec S 3; cu_x : vec S 3; cu_y : vec S 3; cu_z : vec S 3 }.
  (** linal::vec3X, vec3Y, vec3Z *)
  Definition unitX : vec S 3 := mk3 s1 s0 s0.
  Definition unitY : vec S 3 := mk3 s0 s1 s0.
  Definition unitZ : vec S 3 := mk3 s0 s0 s1.
  (** Cuboid(origin, diagonal) (Cuboid.hpp:22-30) *)
  Definition cuboid_diag (o d : vec S 3) : cuboid :=
    mkCuboid o (projection d unitX) (projection d unitY) (projection d unitZ).
  (** Cuboid(diagonal) (Cuboid.hpp:32-35) *)
  Definition cuboid_diag0 (d : vec S 3) : cuboid := cuboid_diag (mk3 s0 s0 s0) d.
  (** operator== (Cuboid.hpp:43-47) *)
  Definition cuboid_eq (a b : cuboid) : bool :=
    is_equal L (cu_origin a) (cu_origin b) && is_equal L (cu_x a) (cu_x b) &&
    is_equal L (cu_y a) (cu_y b) && is_equal L (cu_z a) (cu_z b).
  (** calc_cuboid_vertices (Cuboid.hpp:55-73) *)
  Definition cuboid_vertices (c : cuboid) : list (vec S 3) :=
    let o := cu_origin c in
    let x := cu_x c in
    let y := cu_y c in
    let z := cu_z c in
    [o; vadd o x; vadd (vadd o x) y; vadd o y; vadd o z; vadd (vadd o x) z;
     vadd (vadd (vadd o x) y) z; vadd (vadd o y) z].

  (** ** operator!= of all primitives: [!(rhs == *this)], the operands change sides
      (Line.hpp:31, Ray.hpp:37, Plane.hpp:33, Segment.hpp:41, Sphere.hpp:40,
      Circle.hpp:42,82, Cone.hpp:43, Cylinder.hpp:31, Cuboid.hpp:48) *)
  Definition line_ne {n} (a b : line n) : bool := negb (line_eq b a).
  Definition ray_ne {n} (a b : ray n) : bool := negb (ray_eq b a).
  Definition plane_ne (a b : plane) : bool := negb (plane_eq b a).
  Definition segment_ne {n} (a b : segment n) : bool := negb (segment_eq b a).
  Definition sphere_ne (a b : sphere) : bool := negb (sphere_eq b a).
  Definition circle2_ne (a b : circle2) : bool := negb (circle2_eq b a).
  Definition circle3_ne (a b : circle3) : bool := negb (circle3_eq b a).
  Definition cone_ne (a b : cone) : bool := negb (cone_eq b a).
  Definition cylinder_ne (a b : cylinder) : bool := negb (cylinder_eq b a).
  Definition cuboid_ne (a b : cuboid) : bool := negb (cuboid_eq b a).
End Shapes.

Arguments line S n : clear implicits.
Arguments mkLine {S n} _ _.
Arguments l_origin {S n} _.
Arguments l_dir {S n} _.
Arguments ray S n : clear implicits.
Arguments mkRay {S n} _ _.
Arguments r_origin {S n} _.
Arguments r_dir {S n} _.
Arguments plane S : clear implicits.
Arguments mkPlane {S} _ _.
Arguments p_origin {S} _.
Arguments p_normal {S} _.
Arguments segment S n : clear implicits.
Arguments mkSegment {S n} _ _.
Arguments g_source {S n} _.
Arguments g_target {S n} _.
Arguments sphere S : clear implicits.
Arguments mkSphere {S} _ _.
Arguments s_origin {S} _.
Arguments s_radius {S} _.
Arguments circle2 S : clear implicits.
Arguments mkCircle2 {S} _ _.
Arguments c2_origin {S} _.
Arguments c2_radius {S} _.
Arguments circle3 S : clear implicits.
Arguments mkCircle3 {S} _ _ _.
Arguments c3_origin {S} _.
Arguments c3_radius {S} _.
Arguments c3_normal {S} _.
Arguments cone S : clear implicits.
Arguments mkCone {S} _ _.
Arguments co_segment {S} _.
Arguments co_radius {S} _.
Arguments cylinder S : clear implicits.
Arguments mkCylinder {S} _ _.
Arguments cy_segment {S} _.
Arguments cy_radius {S} _.
Arguments cuboid S : clear implicits.
Arguments mkCuboid {S} _ _ _ _.
Arguments cu_origin {S} _.
Arguments cu_x {S} _.
Arguments cu_y {S} _.
Arguments cu_z {S} _.
