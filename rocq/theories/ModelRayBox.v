(** * Ray / AABB intersection *)

From Coq Require Import List Arith Bool.
From Verif Require Import Scalar Linal Result ModelShapes ModelBox.
Local Open Scope scalar_scope.

Section RayBox.
  Context {S : Scalar} (L : Linal S).

  (** inverse of one component of the direction (Intersect/IntersectAABBHelper.hpp:43-57) *)
  Definition inv_component (d : S) : S := if isZero L (leps L) d then sinf else s1 / d.

  (** entry and exit parameter of one slab (lines 68-97); [None] is the early
      return of line 78 *)
  Definition slab_axis (o d mn mx : S) : option (S * S) :=
    let inv := inv_component d in
    if isZero L (leps L) d then
      if isLess L (leps L) o mn || isGreater L (leps L) o mx then None
      else Some (- sinf, sinf)
    else
      let t1 := (mn - o) * inv in
      let t2 := (mx - o) * inv in
      Some (std_min t1 t2, std_max t1 t2).

  (** aabb_ray_intersection_interval (lines 29-106); the default of the result
      (lines 18-23) is [max], [lowest].  The loop over the axes is unrolled *)
  Definition ray_interval (r : ray S 3) (b : aabb S 3) : S * S :=
    let '(o0, (o1, (o2, _))) := r_origin r in
    let '(d0, (d1, (d2, _))) := r_dir r in
    let '(m0, (m1, (m2, _))) := a_min b in
    let '(x0, (x1, (x2, _))) := a_max b in
    match slab_axis o0 d0 m0 x0 with
    | None => (smax, slowest)
    | Some (l0, h0) =>
      match slab_axis o1 d1 m1 x1 with
      | None => (smax, slowest)
      | Some (l1, h1) =>
        match slab_axis o2 d2 m2 x2 with
        | None => (smax, slowest)
        | Some (l2, h2) => (std_max l0 (std_max l1 l2), std_min h0 (std_min h1 h2))
        end
      end
    end.

  (** ordinate_to_point (lines 108-113) *)
  Definition ordinate_to_point (dbg : bool) (r : ray S 3) (t : S) : res (vec S 3) :=
    let* _ := geo_assert dbg (isGreaterEq L (leps L) t s0) in
    Ok (vadd (r_origin r) (vscale t (r_dir r))).

  (** is_intersecting(Ray, AABB), is_intersecting(AABB, Ray)
      (Intersect/IntersectAABB.hpp:111-133) *)
  Definition ray_box_is_intersecting (r : ray S 3) (b : aabb S 3) : bool :=
    let '(tEnter, tExit) := ray_interval r b in
    isLessEq L (leps L) tEnter tExit && isGreaterEq L (leps L) tExit s0.

  (** AABBIntersectionResult (lines 135-170).  The defaults of the points are
      vec3_highest_v and vec3_lowest_v (Utils/DefaultValues.hpp:19-28), see
      [vec_init1] for the constructor with one argument *)
  Record box_hits := mkHits { h_enter : vec S 3; h_exit : vec S 3; h_has_enter : bool; h_has_exit : bool }.
  Definition hits_default (fill : bool) : box_hits :=
    mkHits (vec_init1 fill 3 smax) (vec_init1 fill 3 slowest) false false.
  Definition set_enter (h : box_hits) (p : vec S 3) : box_hits := mkHits p (h_exit h) true (h_has_exit h).
  Definition set_exit (h : box_hits) (p : vec S 3) : box_hits := mkHits (h_enter h) p (h_has_enter h) true.
  (** operator bool (line 157) *)
  Definition hits_bool (h : box_hits) : bool := h_has_enter h || h_has_exit h.

  (** intersect(Ray, AABB), intersect(AABB, Ray) (lines 172-200) *)
  Definition ray_box_intersect (fill dbg : bool) (r : ray S 3) (b : aabb S 3) : res box_hits :=
    let '(tEnter, tExit) := ray_interval r b in
    if isGreaterEq L (leps L) tEnter tExit then Ok (hits_default fill)
    else
      let* result :=
        (if isGreaterEq L (leps L) tEnter s0
         then let* p := ordinate_to_point dbg r tEnter in Ok (set_enter (hits_default fill) p)
         else Ok (hits_default fill)) in
      if isGreaterEq L (leps L) tExit s0
      then let* p := ordinate_to_point dbg r tExit in Ok (set_exit result p)
      else Ok result.
End RayBox.

Arguments box_hits S : clear implicits.
Arguments mkHits {S} _ _ _ _.
Arguments h_enter {S} _.
Arguments h_exit {S} _.
Arguments h_has_enter {S} _.
Arguments h_has_exit {S} _.
Arguments hits_bool {S} _.
Arguments hits_default {S} fill.
