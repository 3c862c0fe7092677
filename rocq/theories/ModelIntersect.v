(** * Intersections of lines, segments, planes and spheres *)

From Coq Require Import List Arith Bool.
From Verif Require Import Scalar Linal Result ModelShapes ModelDistance.
Local Open Scope scalar_scope.

Section Intersect.
  Context {S : Scalar} (L : Linal S).
  Let s2 : S := s1 + s1.
  Let s4 : S := s2 + s2.

  Let x2 (v : vec S 2) : S := fst v.
  Let y2 (v : vec S 2) : S := fst (snd v).

  (** intersect(Line2, Line2) (Intersect/IntersectLine.hpp:19-40) *)
  Definition intersect_line2 (eps : S) (l r : line S 2) : option (vec S 2) :=
    let lhsDir := l_dir l in
    let rhsDir := l_dir r in
    let detA := x2 lhsDir * y2 rhsDir - x2 rhsDir * y2 lhsDir in
    if isZero L eps (sabs detA) then None
    else
      let dist := vsub (l_origin r) (l_origin l) in
      let t := (x2 dist * y2 rhsDir - y2 dist * x2 rhsDir) / detA in
      Some (vadd (l_origin l) (vscale t lhsDir)).

  (** intersect(Line3, Line3) (Intersect/IntersectLine.hpp:46-68); the parallel
      test uses the default tolerance (line 54) *)
  Definition intersect_line3 (eps : S) (l r : line S 3) : option (vec S 3) :=
    match closest_params L (leps L) (l_origin l) (l_dir l) (l_origin r) (l_dir r) with
    | None => None
    | Some (t, s) =>
        let lhsPoint := vadd (l_origin l) (vscale t (l_dir l)) in
        let rhsPoint := vadd (l_origin r) (vscale s (l_dir r)) in
        if isZero L eps (vlength (vsub lhsPoint rhsPoint)) then Some lhsPoint else None
    end.

  (** intersect(Segment2, Segment2) (Intersect/IntersectSegment.hpp:21-52) *)
  Definition intersect_segment2 (dbg : bool) (eps : S) (f g : segment S 2) : res (option (vec S 2)) :=
    let fSource := g_source f in
    let sSource := g_source g in
    let fDir := vsub (g_target f) fSource in
    let sDir := vsub (g_target g) sSource in
    let detA := (x2 fDir * y2 sDir) - (x2 sDir * y2 fDir) in
    if isZero L eps detA then Ok None
    else
      let fDist := vsub sSource fSource in
      let t := (x2 fDist * y2 sDir - y2 fDist * x2 sDir) / detA in
      let s := (x2 fDir * - y2 fDist - y2 fDir * - x2 fDist) / detA in
      if isLess L eps s s0 || isGreater L eps s s1 || isLess L eps t s0 || isGreater L eps t s1
      then Ok None
      else
        let* _ := geo_assert dbg (veq L (vadd fSource (vscale t fDir)) (vadd sSource (vscale s sDir))) in
        Ok (Some (vadd fSource (vscale t fDir))).

  (** intersect(Segment3, Segment3) (Intersect/IntersectSegment.hpp:59-82) *)
  Definition intersect_segment3 (eps : S) (f g : segment S 3) : option (vec S 3) :=
    let fSource := g_source f in
    let sSource := g_source g in
    let fDir := vsub (g_target f) fSource in
    let sDir := vsub (g_target g) sSource in
    match closest_params L eps fSource fDir sSource sDir with
    | None => None
    | Some (t, s) =>
        if isLess L eps s s0 || isGreater L eps s s1 || isLess L eps t s0 || isGreater L eps t s1
        then None
        else Some (vadd fSource (vscale t fDir))
    end.

  (** intersect(Segment3, Ray3) (Intersect/IntersectSegment.hpp:84-113) *)
  Definition intersect_segment_ray (eps : S) (g : segment S 3) (r : ray S 3) : option (vec S 3) :=
    let segSource := g_source g in
    let segDir := vsub (g_target g) segSource in
    match closest_params L eps segSource segDir (r_origin r) (r_dir r) with
    | None => None
    | Some (t, s) =>
        if isLess L eps t s0 || isGreater L eps t s1 || isLess L eps s s0
        then None
        else Some (vadd (r_origin r) (vscale s (r_dir r)))
    end.

  (** calc_intersection_parameter (Intersect/IntersectPlane.hpp:19-32) *)
  Definition plane_param (eps : S) (po pn lo ld : vec S 3) : option S :=
    if isZero L eps (dot ld pn) then None
    else Some (dot (vsub po lo) pn / dot ld pn).

  (** intersect(Plane, Line3) (Intersect/IntersectPlane.hpp:36-53) *)
  Definition intersect_plane_line (eps : S) (p : plane S) (l : line S 3) : option (vec S 3) :=
    let dirDot := dot (l_dir l) (p_normal p) in
    if isZero L eps dirDot then None
    else
      let paramD := dot (vsub (p_origin p) (l_origin l)) (p_normal p) / dirDot in
      Some (vadd (l_origin l) (vscale paramD (l_dir l))).

  (** intersect(Plane, Ray3) (Intersect/IntersectPlane.hpp:55-71) *)
  Definition intersect_plane_ray (eps : S) (p : plane S) (r : ray S 3) : option (vec S 3) :=
    match plane_param eps (p_origin p) (p_normal p) (r_origin r) (r_dir r) with
    | Some t => if isGreater L eps t s0 then Some (vadd (r_origin r) (vscale t (r_dir r))) else None
    | None => None
    end.

  (** intersect(Plane, Segment3) (Intersect/IntersectPlane.hpp:73-89) *)
  Definition intersect_plane_segment (eps : S) (p : plane S) (g : segment S 3) : option (vec S 3) :=
    let segDir := vsub (g_target g) (g_source g) in
    match plane_param eps (p_origin p) (p_normal p) (g_source g) segDir with
    | Some t =>
        if isGreater L eps t s0 && isLessEq L eps t s1
        then Some (vadd (g_source g) (vscale t segDir)) else None
    | None => None
    end.

  (** ** Sphere (Intersect/IntersectSphere.hpp); [SphereIntersection] (lines
      15-33) is the pair of its two optional points *)
  Definition sphere_hits := (option (vec S 3) * option (vec S 3))%type.

  (** the coefficients a, b and the discriminant (lines 45-49, 76-80, 121-127) *)
  Definition sphere_quadratic (s : sphere S) (o d : vec S 3) : S * S * S :=
    let deltaOrigin := vsub o (s_origin s) in
    let a := dot d d in
    let b := s2 * dot d deltaOrigin in
    let c := dot deltaOrigin deltaOrigin - s_radius s * s_radius s in
    (a, b, b * b - s4 * a * c).

  (** intersect(Sphere, Line3) (lines 35-65) *)
  Definition intersect_sphere_line (eps : S) (s : sphere S) (l : line S 3) : sphere_hits :=
    let o := l_origin l in
    let dir := l_dir l in
    let '(a, b, discriminant) := sphere_quadratic s o dir in
    if isGreater L eps discriminant s0 then
      let sqrtDiscr := ssqrt discriminant in
      let twoA := s2 * a in
      let t1 := (- b + sqrtDiscr) / twoA in
      let t2 := (- b - sqrtDiscr) / twoA in
      (Some (vadd o (vscale t1 dir)), Some (vadd o (vscale t2 dir)))
    else if isZero L eps discriminant then
      let t := - b / s2 * a in
      (Some (vadd o (vscale t dir)), None)
    else (None, None).

  (** intersect(Sphere, Ray3) (lines 67-109) *)
  Definition intersect_sphere_ray (eps : S) (s : sphere S) (r : ray S 3) : sphere_hits :=
    let o := r_origin r in
    let dir := r_dir r in
    let '(a, b, discriminant) := sphere_quadratic s o dir in
    if isGreater L eps discriminant s0 then
      let sqrtDiscr := ssqrt discriminant in
      let twoA := s2 * a in
      let t1 := (- b + sqrtDiscr) / twoA in
      let t2 := (- b - sqrtDiscr) / twoA in
      (if isGreaterEq L eps t1 s0 then Some (vadd o (vscale t1 dir)) else None,
       if isGreaterEq L eps t2 s0 then Some (vadd o (vscale t2 dir)) else None)
    else if isZero L eps discriminant then
      let t := - b / s2 * a in
      if isGreaterEq L eps t s0 then (Some (vadd o (vscale t dir)), None) else (None, None)
    else (None, None).

  (** intersect(Sphere, Segment3) (lines 111-160) *)
  Definition intersect_sphere_segment (eps : S) (s : sphere S) (g : segment S 3) : sphere_hits :=
    let o := g_source g in
    let dir := vsub (g_target g) (g_source g) in
    let '(a, b, discriminant) := sphere_quadratic s o dir in
    if isGreater L eps discriminant s0 then
      let sqrtDiscr := ssqrt discriminant in
      let twoA := s2 * a in
      let t1 := (- b + sqrtDiscr) / twoA in
      let t2 := (- b - sqrtDiscr) / twoA in
      (if isGreaterEq L eps t1 s0 && isLessEq L eps t1 s1 then Some (vadd o (vscale t1 dir)) else None,
       if isGreaterEq L eps t2 s0 && isLessEq L eps t2 s1 then Some (vadd o (vscale t2 dir)) else None)
    else if isZero L eps discriminant then
      let t := - b / s2 * a in
      if isGreaterEq L eps t s0 && isLessEq L eps t s1
      then (Some (vadd o (vscale t dir)), None) else (None, None)
    else (None, None).
End Intersect.
