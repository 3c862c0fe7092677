(** * Tessellation: the mesh builders  (src/include/Geometry/HalfedgeMeshBuilder)

    [W] is the number of values of the unsigned index type [TIndex] (at least as
    wide as [unsigned], so that there is no promotion to a signed type): index
    arithmetic is modulo [W].  The conversions between scalar types in
    CuboidMeshBuilder (which names linal::double3 whatever TFloat is) are not
    modelled.  [linal::rot_align] and the comparison of matrices are external;
    they are arguments of the functions below. *)

From Coq Require Import List Arith Bool.
From Verif Require Import Scalar Linal Result ModelShapes ModelTransform ModelMesh.
Import ListNotations.

Section Tess.
  Context {S : Scalar} (L : Linal S).
  Let sc_two : S := sadd s1 s1.
  Local Open Scope nat_scope.

  (** ** Points *)

  (** calc_sphere_points (SphereMeshBuilder.hpp:92-129) for [p] = m_polarCount,
      [a] = m_azimuthCount *)
  Definition sphere_points (p a : nat) (s : sphere S) : list (point S) :=
    let polarStep := (spi / sofnat p)%S in
    let azimuthStep := (sc_two * spi / sofnat a)%S in
    let radius := s_radius s in
    let rings := flat_map (fun i =>
        let polarAngle := (sofnat i * polarStep)%S in
        let z := (radius * scos polarAngle)%S in
        let projRadius := (radius * ssin polarAngle)%S in
        map (fun j =>
          let azimuthAngle := (sofnat j * azimuthStep)%S in
          mk3 (projRadius * scos azimuthAngle)%S (projRadius * ssin azimuthAngle)%S z)
        (seq 0 a)) (seq 1 (p - 1)) in
    let points := rings ++ [mk3 s0 s0 radius; mk3 s0 s0 (- radius)%S] in
    if negb (veq L (s_origin s) (mk3 s0 s0 s0))
    then map (fun q => vadd q (s_origin s)) points
    else points.

  (** CircleDiscretizationDirection (DiscretizeCircle.hpp:30-34) *)
  Inductive direction := CCW | CW.

  (** discretize_circle (DiscretizeCircle.hpp:41-63); the overload of lines 19-28
      is only used by a function that is never called *)
  Definition discretize_circle (center : point S) (radius : S) (a : nat) (d : direction) : list (point S) :=
    let step := (sc_two * spi / sofnat a)%S in
    let step := match d with CW => (- step)%S | CCW => step end in
    map (fun i =>
      let angle := (sofnat i * step)%S in
      vadd center (mk3 (scos angle * radius)%S (ssin angle * radius)%S s0)) (seq 0 a).
  (** the points written by calc_circle_triangles (DiscretizeCircle.hpp:81-84) *)
  Definition circle_points (center : point S) (radius : S) (a : nat) (d : direction) : list (point S) :=
    center :: discretize_circle center radius a d.

  Section Width.
  Context (W : nat).

  (** [x - y] in the index type, for [y <= W] *)
  Definition usub (x y : nat) : nat := (x + (W - y)) mod W.

  (** ** Indices *)

  (** toIdx (SphereMeshBuilder.hpp:133-134) *)
  Definition toIdx (a i j : nat) : nat := (i * a + j) mod W.

  (** calc_sphere_triangle_indices (SphereMeshBuilder.hpp:131-201); [n] is the
      number of points *)
  Definition sphere_indices (p a n : nat) : list nat :=
    let topi := 0 in
    let top := usub n 2 in
    let bottomi := usub p 2 in
    let bottom := usub n 1 in
    [toIdx a topi (usub a 1); top; toIdx a topi 0] ++
    [toIdx a bottomi 0; bottom; toIdx a bottomi (usub a 1)] ++
    flat_map (fun j =>
      [top; toIdx a topi j; toIdx a topi (usub j 1)] ++
      [toIdx a bottomi j; bottom; toIdx a bottomi (usub j 1)]) (seq 1 (a - 1)) ++
    flat_map (fun i =>
      let iprev := usub i 1 in
      flat_map (fun j =>
        let jprev := usub j 1 in
        let iprevj := toIdx a iprev j in
        let ijprev := toIdx a i jprev in
        [iprevj; ijprev; toIdx a iprev jprev] ++
        [ijprev; iprevj; toIdx a i j]) (seq 1 (a - 1)) ++
      [toIdx a i (usub a 1); toIdx a iprev (usub a 1); toIdx a iprev 0] ++
      [toIdx a i 0; toIdx a i (usub a 1); toIdx a iprev 0]) (seq 1 (usub p 1 - 1)).

  (** the indices written by calc_circle_triangles (DiscretizeCircle.hpp:86-94);
      the loop condition [i <= endIdx] always holds if endIdx is the maximum *)
  Definition circle_indices (a mid : nat) : res (list nat) :=
    let startIdx := (mid + 1) mod W in
    let endIdx := usub (startIdx + a) 1 in
    if endIdx =? W - 1 then Diverge
    else Ok (flat_map (fun i => [mid; i; if i =? endIdx then startIdx else (i + 1) mod W])
                      (seq startIdx (endIdx + 1 - startIdx))).

  (** calc_cone_triangles (ConeMeshBuilder.hpp:74-101) *)
  Definition cone_triangles (a : nat) (c : cone S) : res (list (point S) * list nat) :=
    let base := circle_points (mk3 s0 s0 s0) (co_radius c) a CCW in
    let* idx := circle_indices a 0 in
    let points := base ++ [mk3 s0 s0 (segment_length (co_segment c))] in
    let startIdx := 1 in
    let endIdx := (length points - 2) mod W in
    let peakIdx := (length points - 1) mod W in
    if endIdx =? W - 1 then Diverge
    else Ok (points, idx ++
      flat_map (fun i => [peakIdx; if i =? endIdx then startIdx else (i + 1) mod W; i])
               (seq startIdx (endIdx + 1 - startIdx))).

  (** the while loop of calc_cylinder_triangles (CylinderMeshBuilder.hpp:111-125);
      [k] is the number of iterations left *)
  Fixpoint mantle (minusOne : nat -> nat) (k b t : nat) : list nat :=
    match k with
    | O => []
    | Datatypes.S k' =>
        [b; t; (b + 1) mod W] ++ [t; minusOne t; (b + 1) mod W] ++
        mantle minusOne k' ((b + 1) mod W) (minusOne t)
    end.

  (** calc_cylinder_triangles (CylinderMeshBuilder.hpp:70-134).  The functions of
      lines 136-221 are never called. *)
  Definition cylinder_triangles (dbg : bool) (a : nat) (c : cylinder S) : res (list (point S) * list nat) :=
    let bottom := circle_points (mk3 s0 s0 s0) (cy_radius c) a CCW in
    let* bidx := circle_indices a 0 in
    let top := circle_points (mk3 s0 s0 (segment_length (cy_segment c))) (cy_radius c) a CW in
    let* tidx := circle_indices a (length bottom mod W) in
    let bottomStartIdx := 1 in
    let bottomEndIdx := a in
    let topStartIdx := (bottomEndIdx + 2) mod W in
    let topEndIdx := (2 * a + 1) mod W in
    let* _ := geo_assert dbg (usub bottomEndIdx bottomStartIdx =? usub a 1) in
    let* _ := geo_assert dbg (usub topEndIdx topStartIdx =? usub a 1) in
    let* _ := geo_assert dbg (usub bottomEndIdx bottomStartIdx =? usub topEndIdx topStartIdx) in
    let minusOne i := if i =? topStartIdx then topEndIdx else usub i 1 in
    Ok (bottom ++ top,
        bidx ++ tidx ++ mantle minusOne (bottomEndIdx - bottomStartIdx) bottomStartIdx topStartIdx ++
        [bottomEndIdx; (topStartIdx + 1) mod W; bottomStartIdx] ++
        [(topStartIdx + 1) mod W; topStartIdx; bottomStartIdx]).

  (** ** MeshBuilderBase (MeshBuilderBase.hpp:15-65) *)
  Section Base.
  Context (meq : hmat S -> hmat S -> bool).   (* operator== on linal::hmat *)
  Context (dbg : bool) (self : addr) (SZ : nat).

  (** lines 43-51 *)
  Definition place (trafo : hmat S) (q : point S) : point S :=
    if negb (meq trafo hidentity)
    then let t := hmul trafo (mk4 (vnth s0 0 q) (vnth s0 1 q) (vnth s0 2 q) s1) in
         mk3 (vnth s0 0 t) (vnth s0 1 t) (vnth s0 2 t)
    else q.

  (** the loop (lines 35-55): corner [j] of a triangle is read from position [i - j] *)
  Fixpoint build_loop (points : list (point S)) (trafo : hmat S) (idx : list nat) (m : mesh S) : res (mesh S) :=
    match idx with
    | i0 :: i1 :: i2 :: r =>
        let* q0 := at_ points i2 in
        let* q1 := at_ points i1 in
        let* q2 := at_ points i0 in
        let* m' := add_triangle L W dbg self m (place trafo q0, place trafo q1, place trafo q2) in
        build_loop points trafo r m'
    | _ => Ok m
    end.

  (** build_triangle_halfedge_mesh (MeshBuilderBase.hpp:26-58) *)
  Definition build_mesh (points : list (point S)) (idx : list nat) (trafo : hmat S) : res (mesh S) :=
    let* _ := geo_assert dbg (0 <? length points) in
    let* _ := geo_assert dbg (length idx mod 3 =? 0) in
    let* m := build_loop points trafo idx empty_mesh in
    set_opposite_halfedges L dbg self SZ m.

  (** ** The builders *)

  (** SphereMeshBuilder members (SphereMeshBuilder.hpp:27-31); m_transformation
      keeps its initial value, the identity (MeshBuilderBase.hpp:24) *)
  Record sphere_builder := mkSB {
    sb_polar : nat; sb_azimuth : nat; sb_origin : point S; sb_radius : S; sb_sphere : option (sphere S) }.
  (** initial state: [o] is what the default constructor of linal::vec3 leaves *)
  Definition sb_init (o : point S) : sphere_builder := mkSB 10 20 o s1 None.
  (** the setters (SphereMeshBuilder.hpp:34-76); the counts are converted to the
      index type *)
  Definition sb_set_polar (b : sphere_builder) (c : nat) := mkSB (c mod W) (sb_azimuth b) (sb_origin b) (sb_radius b) (sb_sphere b).
  Definition sb_set_azimuth (b : sphere_builder) (c : nat) := mkSB (sb_polar b) (c mod W) (sb_origin b) (sb_radius b) (sb_sphere b).
  Definition sb_set_sphere (b : sphere_builder) (s : sphere S) := mkSB (sb_polar b) (sb_azimuth b) (sb_origin b) (sb_radius b) (Some s).
  Definition sb_set_origin (b : sphere_builder) (o : point S) :=
    match sb_sphere b with
    | Some s => mkSB (sb_polar b) (sb_azimuth b) (sb_origin b) (sb_radius b) (Some (mkSphere o (s_radius s)))
    | None => mkSB (sb_polar b) (sb_azimuth b) o (sb_radius b) None
    end.
  Definition sb_set_radius (b : sphere_builder) (r : S) :=
    match sb_sphere b with
    | Some s => mkSB (sb_polar b) (sb_azimuth b) (sb_origin b) (sb_radius b) (Some (mkSphere (s_origin s) r))
    | None => mkSB (sb_polar b) (sb_azimuth b) (sb_origin b) r None
    end.
  (** build (SphereMeshBuilder.hpp:78-89) *)
  Definition sb_build (b : sphere_builder) : res (sphere_builder * mesh S) :=
    let s := match sb_sphere b with Some s => s | None => mkSphere (sb_origin b) (sb_radius b) end in
    let b' := mkSB (sb_polar b) (sb_azimuth b) (sb_origin b) (sb_radius b) (Some s) in
    let pts := sphere_points (sb_polar b) (sb_azimuth b) s in
    let idx := sphere_indices (sb_polar b) (sb_azimuth b) (length pts mod W) in
    let* m := build_mesh pts idx hidentity in
    Ok (b', m).

  (** linal::rot_align(m, u, v): the matrix written to [m] *)
  Context (rot_align : hvec S -> hvec S -> hmat S).

  (** CylinderMeshBuilder::build (CylinderMeshBuilder.hpp:45-67); [None] is
      nullptr *)
  Definition cylinder_build (a : nat) (oc : option (cylinder S)) : res (option (mesh S)) :=
    let* _ := geo_assert dbg (match oc with Some _ => true | None => false end) in
    match oc with
    | None => Ok None
    | Some c =>
        let seg := cy_segment c in
        let trafo := set_translation (rot_align (mk4 s0 s0 s1 s1) (to_hvec (segment_direction seg))) (g_source seg) in
        let* (pts, idx) := cylinder_triangles dbg a c in
        let* m := build_mesh pts idx trafo in
        Ok (Some m)
    end.

  (** ConeMeshBuilder::build (ConeMeshBuilder.hpp:46-71) *)
  Definition cone_build (a : nat) (oc : option (cone S)) : res (option (mesh S)) :=
    let* _ := geo_assert dbg (match oc with Some _ => true | None => false end) in
    match oc with
    | None => Ok None
    | Some c =>
        let seg := co_segment c in
        let* _ := geo_assert dbg (negb (isZero L (leps L) (segment_length seg))) in
        let dir := segment_direction seg in
        let* _ := geo_assert dbg (isEq L (leps L) (vlength dir) s1) in
        let trafo := set_translation (rot_align (mk4 s0 s0 s1 s1) (to_hvec dir)) (g_source seg) in
        let* (pts, idx) := cone_triangles a c in
        let* m := build_mesh pts idx trafo in
        Ok (Some m)
    end.

  (** calc_cuboid_face_triangles (CuboidMeshBuilder.hpp:104-123) *)
  Definition face_triangles (v0 v1 v2 v3 origin translation : point S) : list (triangle S) :=
    let w0 := vadd v0 origin in let w1 := vadd v1 origin in
    let w2 := vadd v2 origin in let w3 := vadd v3 origin in
    let x0 := vadd w0 translation in let x1 := vadd w1 translation in
    let x2 := vadd w2 translation in let x3 := vadd w3 translation in
    [(w0, w1, w2); (w2, w3, w0); (x2, x1, x0); (x0, x3, x2)].
  (** calc_cuboid_triangles (CuboidMeshBuilder.hpp:80-102) *)
  Definition cuboid_triangles (c : cuboid S) : list (triangle S) :=
    let z := mk3 s0 s0 s0 in
    let vx := cu_x c in let vy := cu_y c in let vz := cu_z c in
    let o := cu_origin c in
    face_triangles z vz (vadd vy vz) vy o vx ++
    face_triangles z vx (vadd vx vz) vz o vy ++
    face_triangles z vy (vadd vx vy) vx o vz.
  Definition cuboid_mesh (c : cuboid S) : res (mesh S) :=   (* lines 66-76 *)
    let* m := add_triangles L W dbg self empty_mesh (cuboid_triangles c) in
    let* m' := set_opposite_halfedges L dbg self SZ m in
    let* _ := geo_assert dbg (length (m_vertices m') =? 8) in
    let* _ := geo_assert dbg (length (m_halfedges m') =? 36) in
    Ok m'.

  (** CuboidMeshBuilder members and setters (CuboidMeshBuilder.hpp:32-55) *)
  Record cuboid_builder := mkCB { cb_cube : option (cuboid S); cb_origin : point S; cb_diagonal : point S }.
  Definition cb_set_origin (b : cuboid_builder) (o : point S) := mkCB (cb_cube b) o (cb_diagonal b).
  Definition cb_set_diagonal (b : cuboid_builder) (d : point S) := mkCB (cb_cube b) (cb_origin b) d.
  Definition cb_set_cuboid (b : cuboid_builder) (c : cuboid S) := mkCB (Some c) (cb_origin b) (cb_diagonal b).
  (** build (CuboidMeshBuilder.hpp:57-77) *)
  Definition cb_build (b : cuboid_builder) : res (cuboid_builder * mesh S) :=
    let c := match cb_cube b with Some c => c | None => cuboid_diag (cb_origin b) (cb_diagonal b) end in
    let* m := cuboid_mesh c in
    Ok (mkCB (Some c) (cb_origin b) (cb_diagonal b), m).

  (** MeshBuilder::build (MeshBuilder.hpp:49-71) for a configuration with counts
      [p] and [a]; [o] as in [sb_init] *)
  Definition mb_sphere (p a : nat) (o : point S) (s : sphere S) : res (mesh S) :=
    let* (_, m) := sb_build (sb_set_sphere (sb_set_azimuth (sb_set_polar (sb_init o) p) a) s) in Ok m.
  Definition mb_cone (a : nat) (c : cone S) : res (option (mesh S)) := cone_build (a mod W) (Some c).
  Definition mb_cylinder (a : nat) (c : cylinder S) : res (option (mesh S)) := cylinder_build (a mod W) (Some c).
  Definition mb_cuboid (o d : point S) (c : cuboid S) : res (mesh S) :=
    let* (_, m) := cb_build (cb_set_cuboid (mkCB None o d) c) in Ok m.
  End Base.
  End Width.
End Tess.

Arguments sphere_builder S : clear implicits.
Arguments mkSB {S} _ _ _ _ _.
Arguments cuboid_builder S : clear implicits.
Arguments mkCB {S} _ _ _.
