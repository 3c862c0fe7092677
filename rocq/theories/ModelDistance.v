(** * Distances *)

From Coq Require Import List Arith Bool.
From Verif Require Import Scalar Linal Result ModelShapes.
Local Open Scope scalar_scope.

Section Distance.
  Context {S : Scalar} (L : Linal S).
  Let s2 : S := s1 + s1.

  (** ** closest_point_on_line_parameters (ClosetPointOnLine.hpp:37-64); [(t, s)] *)
  Definition closest_params (eps : S) (lo ld ro rd : vec S 3) : option (S * S) :=
    let w0 := vsub lo ro in
    let a := dot ld ld in
    let b := dot ld rd in
    let c := dot rd rd in
    let d := dot ld w0 in
    let e := dot rd w0 in
    let denom := a * c - b * b in
    if isZero L eps denom then None
    else
      let t := (b * e - c * d) / denom in
      let s := (a * e - b * d) / denom in
      Some (t, s).

  (** ** distance(vec, Line), distance(Line, vec) (Distance/DistanceLine.hpp:14-24) *)
  Definition dist_point_line {n} (v : vec S n) (l : line S n) : S :=
    vlength (rejection (vsub (l_origin l) v) (l_dir l)).

  (** distance(Line, Line) (Distance/DistanceLine.hpp:26-39); [cross] exists for D = 3 *)
  Definition dist_line_line (dbg : bool) (a b : line S 3) : res S :=
    let* _ := geo_assert dbg (isEq L (leps L) (vlength (l_dir a)) s1) in
    let* _ := geo_assert dbg (isEq L (leps L) (vlength (l_dir b)) s1) in
    let c := cross (l_dir a) (l_dir b) in
    let crossLen := vlength c in
    if isZero L (leps L) crossLen then Ok (dist_point_line (l_origin a) b)
    else Ok (dot (vsub (l_origin a) (l_origin b)) c / crossLen).

  (** ** distance(Plane, vec) (Distance/DistancePlane.hpp:12-23) *)
  Definition dist_plane_point (p : plane S) (v : vec S 3) : S :=
    sabs (dot (vsub (p_origin p) v) (p_normal p)).

  (** ** distance(Ray, vec) (Distance/DistanceRay.hpp:16-40) *)
  Definition dist_ray_point {n} (r : ray S n) (v : vec S n) : S :=
    let vecO := vsub v (r_origin r) in
    let dotProduct := dot vecO (r_dir r) in
    if isGreater L (leps L) dotProduct s0
    then vlength (rejection vecO (r_dir r))
    else vlength (vsub (r_origin r) v).

  (** distance(Line, Ray) (Distance/DistanceRay.hpp:42-70); D = 3 because of the
      closest-point parameters *)
  Definition dist_line_ray (l : line S 3) (r : ray S 3) : S :=
    match closest_params (leps L) (l_origin l) (l_dir l) (r_origin r) (r_dir r) with
    | Some (t, s) =>
        if s <? s0 then dist_point_line (r_origin r) l
        else
          let linePoint := vadd (l_origin l) (vscale t (l_dir l)) in
          let rayPoint := vadd (r_origin r) (vscale s (r_dir r)) in
          vlength (vsub linePoint rayPoint)
    | None => dist_point_line (r_origin r) l
    end.

  (** ** calc_segment_point, calc_ray_point (Distance/DistanceSegment.hpp:27-60) *)
  Definition calc_segment_point {n} (g : segment S n) (p : S) : vec S n :=
    if p <? s0 then g_source g
    else if s1 <? p then g_target g
    else vadd (g_source g) (vscale p (vsub (g_target g) (g_source g))).
  Definition calc_ray_point {n} (r : ray S n) (p : S) : vec S n :=
    if p <? s0 then r_origin r
    else vadd (r_origin r) (vscale p (r_dir r)).

  (** distance(Segment, vec) (Distance/DistanceSegment.hpp:64-80) *)
  Definition dist_segment_point {n} (g : segment S n) (v : vec S n) : S :=
    let source := g_source g in
    let ps := vsub v source in
    let dir := vsub (g_target g) source in
    let parameter := dot ps dir / vlength dir in
    let projParameter := std_min (std_max parameter s0) s1 in
    let projVec := vadd source (vscale projParameter dir) in
    vlength (vsub projVec v).

  (** distance(Segment, Ray) (Distance/DistanceSegment.hpp:111-199), D = 3.  Line
      189 dereferences [params] also when it is empty and none of the returns
      above was taken; that is undefined behaviour. [lineDist] (a [double]) is
      taken to have the type [T]. *)
  Definition dist_segment_ray (g : segment S 3) (r : ray S 3) : res S :=
    let segSource := g_source g in
    let segDir := vsub (g_target g) segSource in
    let raySource := r_origin r in
    let rayDir := r_dir r in
    match closest_params (leps L) segSource segDir raySource rayDir with
    | None =>
        let diffVec := vsub raySource segSource in
        let dir := vsub (g_target g) segSource in
        let parameter := dot diffVec dir / vlength dir in
        let lineDist := dist_point_line raySource (line_make segSource segDir) in
        let within := isGreaterEq L (leps L) parameter s0 && isLessEq L (leps L) parameter s1 in
        let before := isLess L (leps L) parameter s0 in
        let behind := isGreater L (leps L) parameter s1 in
        let offset (inner : S) (otherwise : res S) : res S :=
          if within then Ok inner
          else if before then
            (if dot rayDir dir <? s0 then Ok (vlength diffVec) else Ok inner)
          else if behind then
            (if s0 <? dot rayDir dir then Ok (vlength (vsub raySource (g_target g))) else Ok inner)
          else otherwise in
        if negb (isEq L (leps L) lineDist s0)
        then offset lineDist (offset s0 UB)
        else offset s0 UB
    | Some (t, s) =>
        Ok (vlength (vsub (calc_segment_point g t) (calc_ray_point r s)))
    end.

  (** ** signedDistance, distance(vec, Sphere) (Distance/DistanceSphere.hpp:12-22) *)
  Definition signed_dist_sphere (v : vec S 3) (s : sphere S) : S :=
    vlength (vsub v (s_origin s)) - s_radius s.
  Definition dist_sphere (v : vec S 3) (s : sphere S) : S := sabs (signed_dist_sphere v s).
End Distance.

(** [distance(Line, Segment)] (DistanceSegment.hpp:82-86) calls an overload that
    is not declared, and [distance(Segment, Segment)] (lines 88-109) calls
    [get_origin] on a segment: neither template can be instantiated, so there is
    nothing to model. *)
