(** * Interval, AABB, extreme points, AABB intersection *)

From Coq Require Import List Arith Bool.
From Verif Require Import Scalar Linal Result.
Import ListNotations.
Local Open Scope scalar_scope.

Section Box.
  Context {S : Scalar} (L : Linal S).

  (** ** Interval (Interval.hpp:11-34) *)
  Record interval := mkInterval { i_start : S; i_end : S }.

  (** Interval::operator== (Interval.hpp:29-32) *)
  Definition interval_eq (a b : interval) : bool :=
    isEq L (leps L) (i_start a) (i_start b) && isEq L (leps L) (i_end a) (i_end b).

  (** Interval::operator!= (Interval.hpp:33): [!(rhs == *this)] *)
  Definition interval_ne (a b : interval) : bool := negb (interval_eq b a).

  (** intersect(Interval, Interval, Interval&) (Intersect/IntersectInterval.hpp:15-63).
      The output parameter is an argument and part of the result; set_start /
      set_end (Interval.hpp:26-27) are the record updates. *)
  Definition intersect_interval (lhs rhs out : interval) : nat * interval :=
    let a := i_start lhs in
    let b := i_end lhs in
    let c := i_start rhs in
    let d := i_end rhs in
    if isLess L (leps L) b c || isGreater L (leps L) a d then (0, out)
    else if isGreater L (leps L) b c then
      if isLess L (leps L) a d then
        let s := if isLess L (leps L) a c then c else a in
        let e := if isGreater L (leps L) b d then d else b in
        (2, mkInterval s e)
      else (1, mkInterval a (i_end out))
    else (1, mkInterval b (i_end out)).

  (** ** AABB (AABB.hpp:16-140) *)
  Record aabb (n : nat) := mkAABB { a_min : vec S n; a_max : vec S n }.
  Arguments mkAABB {n} _ _.
  Arguments a_min {n} _.
  Arguments a_max {n} _.

  (** [linal::vec<T,D>{x}]: the library is not available, so both readings of a
      one-element initialiser are modelled: [fill = true] sets every component,
      [fill = false] the first one and leaves the others 0. *)
  Definition vec_init1 (fill : bool) (n : nat) (x : S) : vec S n :=
    match n with
    | O => tt
    | Datatypes.S m => (x, if fill then vconst m x else vconst m s0)
    end.

  (** AABB() (AABB.hpp:27-31) *)
  Definition aabb_default (fill : bool) (n : nat) : aabb n :=
    mkAABB (vec_init1 fill n s1) (vec_init1 fill n (- s1)).

  (** is_valid (AABB.hpp:69-79) *)
  Definition aabb_is_valid {n} (b : aabb n) : bool :=
    negb (vex2 (isGreaterEq L (leps L)) (a_min b) (a_max b)).

  (** is_empty (AABB.hpp:84-94) *)
  Definition aabb_is_empty {n} (b : aabb n) : bool :=
    vex2 (isGreater L (leps L)) (a_min b) (a_max b).

  (** AABB(min, max) (AABB.hpp:33-38) *)
  Definition aabb_make (dbg : bool) {n} (mn mx : vec S n) : res (aabb n) :=
    let* _ := geo_assert dbg (aabb_is_valid (mkAABB mn mx)) in
    Ok (mkAABB mn mx).

  (** AABB(min, extend) (AABB.hpp:47-55) *)
  Definition aabb_extend (dbg : bool) {n} (mn : vec S n) (ext : S) : res (aabb n) :=
    let* _ := geo_assert dbg (s0 <=? ext) in
    Ok (mkAABB mn (vmap (fun x => x + ext) mn)).

  (** set_min, set_max (AABB.hpp:60-61) *)
  Definition aabb_set_min {n} (b : aabb n) (m : vec S n) : aabb n := mkAABB m (a_max b).
  Definition aabb_set_max {n} (b : aabb n) (m : vec S n) : aabb n := mkAABB (a_min b) m.

  (** center (AABB.hpp:63) *)
  Definition aabb_center {n} (b : aabb n) : vec S n :=
    vadd (a_min b) (vdivs (vsub (a_max b) (a_min b)) (s1 + s1)).

  (** add(vec) (AABB.hpp:101-114); the two updates of one axis are independent *)
  Definition aabb_add_point {n} (b : aabb n) (v : vec S n) : aabb n :=
    mkAABB
      (vmap2 (fun x m => if isLess L (leps L) x m then x else m) v (a_min b))
      (vmap2 (fun x m => if isGreater L (leps L) x m then x else m) v (a_max b)).

  (** add(AABB) (AABB.hpp:120-133) *)
  Definition aabb_add_box {n} (b o : aabb n) : aabb n :=
    mkAABB
      (vmap2 (fun x m => if isLess L (leps L) x m then x else m) (a_min o) (a_min b))
      (vmap2 (fun x m => if isGreater L (leps L) x m then x else m) (a_max o) (a_max b)).

  (** operator== (AABB.hpp:135-138) *)
  Definition aabb_eq {n} (a b : aabb n) : bool :=
    is_equal L (a_min a) (a_min b) && is_equal L (a_max a) (a_max b).

  (** operator!= (AABB.hpp:139): [!( *this == rhs)] *)
  Definition aabb_ne {n} (a b : aabb n) : bool := negb (aabb_eq a b).

  (** ** extreme_points_along_direction (ExtremePointsInDirection.hpp:27-51) *)
  Definition extreme_step {n} (dir : vec S n) (mm : S * S) (v : vec S n) : S * S :=
    let dist := dot v dir in
    let mn := if dist <? fst mm then dist else fst mm in
    let mx := if snd mm <? dist then dist else snd mm in
    (mn, mx).

  Definition extreme_points (dbg : bool) {n} (dir : vec S n) (pts : list (vec S n)) : res (S * S) :=
    let* _ := geo_assert dbg (match pts with [] => false | _ => true end) in
    let* _ := geo_assert dbg (isEq L (leps L) (vlength dir) s1) in
    Ok (fold_left (extreme_step dir) pts (smax, slowest)).

  (** the [i]-th unit vector: axis[i][i] = 1 (AABB.hpp:151-155).  The
      vectors of the array are default-initialised; linal's default constructor
      is taken to zero the components. *)
  Fixpoint axis_vec (n i : nat) : vec S n :=
    match n with
    | O => tt
    | Datatypes.S m =>
        match i with
        | O => (s1, vconst m s0)
        | Datatypes.S j => (s0, axis_vec m j)
        end
    end.

  (** make_aabb (AABB.hpp:143-171) for three-dimensional points with
      TResultFloat = TVec::value_type.  (The initialisers in lines 163-164 list
      three components, so D = 3 is the only dimension for which the template is
      meaningful.) *)
  Definition make_aabb (dbg : bool) (pts : list (vec S 3)) : res (aabb 3) :=
    let* _ := geo_assert dbg (match pts with [] => false | _ => true end) in
    let* m0 := extreme_points dbg (axis_vec 3 0) pts in
    let* m1 := extreme_points dbg (axis_vec 3 1) pts in
    let* m2 := extreme_points dbg (axis_vec 3 2) pts in
    aabb_make dbg (mk3 (fst m0) (fst m1) (fst m2)) (mk3 (snd m0) (snd m1) (snd m2)).

  (** ** AABB / AABB (Intersect/IntersectAABB.hpp) *)

  (** the separating test of one axis (lines 37, 68) *)
  Definition axis_apart (l r : S * S) : bool :=
    isLessEq L (leps L) (snd l) (fst r) || isGreaterEq L (leps L) (fst l) (snd r).

  Definition bounds {n} (b : aabb n) : vec (S * S) n := vmap2 pair (a_min b) (a_max b).

  (** is_intersecting(AABB, AABB) (lines 26-43) *)
  Definition aabb_is_intersecting {n} (l r : aabb n) : bool :=
    negb (vex2 axis_apart (bounds l) (bounds r)).

  (** intersect(AABB, AABB) (lines 54-77) *)
  Definition aabb_intersect (fill dbg : bool) {n} (l r : aabb n) : res (aabb n) :=
    if vex2 axis_apart (bounds l) (bounds r) then Ok (aabb_default fill n)
    else aabb_make dbg (vmap2 std_max (a_min l) (a_min r)) (vmap2 std_min (a_max l) (a_max r)).
End Box.

Arguments interval S : clear implicits.
Arguments mkInterval {S} _ _.
Arguments aabb S n : clear implicits.
Arguments mkAABB {S n} _ _.
Arguments a_min {S n} _.
Arguments a_max {S n} _.
Arguments i_start {S} _.
Arguments i_end {S} _.
Arguments vec_init1 {S} fill n x.
Arguments aabb_default {S} fill n.
Arguments aabb_center {S n} b.
Arguments axis_vec {S} n i.
