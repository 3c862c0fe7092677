(** * Specification vocabulary for tessellations *)

From Coq Require Import Reals List Arith.
From Verif Require Import Scalar Linal Result SpecReal ModelShapes ModelTransform SpecTransform ModelMesh SpecMesh.
Import ListNotations.

(** an index buffer read three by three *)
Fixpoint triples {A} (l : list A) : list (A * A * A) :=
  match l with
  | x :: y :: z :: r => (x, y, z) :: triples r
  | _ => []
  end.

(** the directed edges of a triangle and of an index buffer *)
Definition edges3 {A} (t : A * A * A) : list (A * A) :=
  let '(x, y, z) := t in [(x, y); (y, z); (z, x)].
Definition buffer_edges {A} (l : list A) : list (A * A) := flat_map edges3 (triples l).

(** the undirected edges of a list containing each in both directions, each once *)
Definition edge_pairs (es : list (nat * nat)) : list (nat * nat) :=
  filter (fun e => fst e <? snd e) es.

(** [u] and [v] are joined by a chain of edges *)
Inductive chain {A} (E : A -> A -> Prop) : A -> A -> Prop :=
| chain_refl u : chain E u u
| chain_step u v w : E u v -> chain E v w -> chain E u w.

(** around its start, the halfedge at [i] is followed by the one at [j]: [j] is
    the successor of the twin of [i] *)
Definition follows {S : Scalar} (m : mesh S) (i j : nat) : Prop :=
  exists u v k h, runs m i u v /\ runs m k v u /\ nth_error (m_halfedges m) k = Some h /\ he_next h = j.

(** the halfedges of the mesh form a closed oriented connected surface: every
    halfedge joins two different vertices and has exactly one twin running the
    other way, no two halfedges run between the same vertices in the same
    direction, any two vertices are joined by a chain of halfedges, and the
    halfedges leaving a vertex form one cycle around it *)
Record closed_mesh {S : Scalar} (m : mesh S) : Prop := mkClosed {
  cm_twin : forall i, i < length (m_halfedges m) ->
    exists u v, runs m i u v /\ u <> v /\ exists! j, runs m j v u;
  cm_once : forall i j u v, runs m i u v -> runs m j u v -> i = j;
  cm_connected : forall u v, u < length (m_vertices m) -> v < length (m_vertices m) ->
    chain (fun x y => exists i, runs m i x y) u v;
  cm_star : forall i j u v w, runs m i u v -> runs m j u w -> chain (follows m) i j }.

(** the corners of a facet: the starts of its halfedge, of the next one and of the
    one after that *)
Definition facet_triangle {S : Scalar} (m : mesh S) (f : facet) : option (triangle S) :=
  let start h := nth_error (m_points m) (he_vertex h) in
  match nth_error (m_halfedges m) (f_he f) with
  | None => None
  | Some h0 =>
      match nth_error (m_halfedges m) (he_next h0) with
      | None => None
      | Some h1 =>
          match nth_error (m_halfedges m) (he_next h1) with
          | None => None
          | Some h2 =>
              match start h0, start h1, start h2 with
              | Some p0, Some p1, Some p2 => Some (p0, p1, p2)
              | _, _, _ => None
              end
          end
      end
  end.

Local Open Scope R_scope.

(** the volume enclosed by the facets, as the sum of the signed volumes of the
    tetrahedra over the facets with apex [c]; positive if the facets are oriented
    outwards *)
Definition sumR (l : list R) : R := fold_right Rplus 0 l.
Definition volume {M} (c : vec R 3) (m : mesh (RS M)) : R :=
  sumR (map (fun f => match facet_triangle m f with
                      | Some (q0, q1, q2) => rdot (rcross (rsub q0 c) (rsub q1 c)) (rsub q2 c) / 6
                      | None => 0
                      end) (m_facets m)).

(** the point with polar angle [th] and azimuth [ph] on the sphere around [o] *)
Definition polar (o : vec R 3) (r th ph : R) : vec R 3 :=
  radd o (r * (sin th * cos ph), (r * (sin th * sin ph), (r * cos th, tt))).
(** the point with azimuth [ph], distance [r] from the z axis and height [z] *)
Definition cylindrical (r ph z : R) : vec R 3 := (r * cos ph, (r * sin ph, (z, tt))).

(** the triangle [q0 q1 q2], seen from [c], turns counter-clockwise when looked
    at from outside *)
Definition faces_away (c q0 q1 q2 : vec R 3) : Prop :=
  0 < rdot (rcross (rsub q1 q0) (rsub q2 q0)) (rsub q0 c).

(** every facet of the mesh has a unit normal, computed by the code, which points
    away from [c] at every corner of the facet *)
Definition outward {M} (self : addr) (m : mesh (RS M)) (c : vec R 3) : Prop :=
  forall k f, nth_error (m_facets m) k = Some f ->
    exists n : vec R 3, calc_facet_normal (only self m) f = Ok n /\ rnorm n = 1 /\
      forall i h q, nth_error (m_halfedges m) i = Some h -> he_facet h = k ->
        nth_error (m_points m) (he_vertex h) = Some q -> 0 < rdot n (rsub q c).
(** the same, pointing towards [c] *)
Definition inward {M} (self : addr) (m : mesh (RS M)) (c : vec R 3) : Prop :=
  forall k f, nth_error (m_facets m) k = Some f ->
    exists n : vec R 3, calc_facet_normal (only self m) f = Ok n /\ rnorm n = 1 /\
      forall i h q, nth_error (m_halfedges m) i = Some h -> he_facet h = k ->
        nth_error (m_points m) (he_vertex h) = Some q -> rdot n (rsub q c) < 0.

(** every facet has corners, so that the two statements above are not vacuous *)
Definition facets_have_corners {S : Scalar} (m : mesh S) : Prop :=
  forall k, (k < length (m_facets m))%nat -> exists i h q,
    nth_error (m_halfedges m) i = Some h /\ he_facet h = k /\ nth_error (m_points m) (he_vertex h) = Some q.

(** the points of the sphere at multiples of the polar and azimuth steps *)
Definition sphere_grid (p a : nat) (o : vec R 3) (r : R) (q : vec R 3) : Prop :=
  exists i j, (i <= p)%nat /\ (j < a)%nat /\ q = polar o r (INR i * (PI / INR p)) (INR j * (2 * PI / INR a)).

(** determinant of a matrix given by its rows *)
Definition det3 (A : vec (vec R 3) 3) : R :=
  let '(u, (v, (w, _))) := A in rdot (rcross u v) w.
Definition e_z : vec R 3 := (0, (0, (1, tt))).
(** [A] is a rotation that turns the z axis into direction [d] *)
Definition rotation_onto (A : vec (vec R 3) 3) (d : vec R 3) : Prop :=
  rigid (affine A rzero) /\ 0 < det3 A /\ affine A rzero e_z = d.
(** the points number 0, ..., a-1 of the circle with radius [r] around [c] in the
    plane spanned by the first two axes of [A] *)
Definition rim (a : nat) (A : vec (vec R 3) 3) (c : vec R 3) (r : R) (q : vec R 3) : Prop :=
  exists j, (j < a)%nat /\ q = affine A c (cylindrical r (INR j * (2 * PI / INR a)) 0).
(** what is asked of the linear algebra library for the axis [s]: aligning the z
    axis with the direction of [s] gives a homogeneous matrix with the rotation
    [A], and comparing the placement with the identity is exact *)
Definition aligned {M} (rot_align : hvec (RS M) -> hvec (RS M) -> hmat (RS M)) (meq : hmat (RS M) -> hmat (RS M) -> bool)
    (s : segment (RS M) 3) (A : vec (vec R 3) 3) : Prop :=
  rotation_onto A (segment_direction s) /\
  exists t l, rot_align (mk4 0 0 1 1 : hvec (RS M)) (to_hvec (segment_direction s)) = hmat_of A t l /\
    (meq (hmat_of A (g_source s) l) hidentity = true -> hmat_of A (g_source s) l = @hidentity (RS M)).

(** the point with coordinates [a], [b], [c] along the sides [x], [y], [z] *)
Definition cuboid_point (o x y z : vec R 3) (a b c : R) : vec R 3 :=
  radd o (radd (rscale a x) (radd (rscale b y) (rscale c z))).
(** the corners and the interior of the parallelepiped *)
Definition cuboid_corner (o x y z q : vec R 3) : Prop :=
  exists a b c, (a = 0 \/ a = 1) /\ (b = 0 \/ b = 1) /\ (c = 0 \/ c = 1) /\ q = cuboid_point o x y z a b c.
Definition cuboid_inside (o x y z q : vec R 3) : Prop :=
  exists a b c, 0 < a < 1 /\ 0 < b < 1 /\ 0 < c < 1 /\ q = cuboid_point o x y z a b c.

(** the call returns normally, or is stopped by an assertion of a debug build *)
Definition returns_or_asserts {A} (dbg : bool) (r : res A) : Prop :=
  (exists x, r = Ok x) \/ (dbg = true /\ r = Trap).

(** calls on a sphere builder, and the configuration they stand for: every call
    sets one value, building changes none *)
Inductive sphere_call (S : Scalar) :=
| SetPolar (c : nat) | SetAzimuth (c : nat) | SetSphere (s : sphere S) | SetOrigin (o : point S) | SetRadius (r : S) | Build.
Arguments SetPolar {S} _. Arguments SetAzimuth {S} _. Arguments SetSphere {S} _.
Arguments SetOrigin {S} _. Arguments SetRadius {S} _. Arguments Build {S}.
Record sphere_config (S : Scalar) := mkConfig { cf_polar : nat; cf_azimuth : nat; cf_origin : point S; cf_radius : S }.
Arguments mkConfig {S} _ _ _ _. Arguments cf_polar {S} _. Arguments cf_azimuth {S} _.
Arguments cf_origin {S} _. Arguments cf_radius {S} _.
Definition configure {S} (c : sphere_config S) (x : sphere_call S) : sphere_config S :=
  match x with
  | SetPolar n => mkConfig n (cf_azimuth c) (cf_origin c) (cf_radius c)
  | SetAzimuth n => mkConfig (cf_polar c) n (cf_origin c) (cf_radius c)
  | SetSphere s => mkConfig (cf_polar c) (cf_azimuth c) (s_origin s) (s_radius s)
  | SetOrigin o => mkConfig (cf_polar c) (cf_azimuth c) o (cf_radius c)
  | SetRadius r => mkConfig (cf_polar c) (cf_azimuth c) (cf_origin c) r
  | Build => c
  end.
