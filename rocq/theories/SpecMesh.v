(** * Specification vocabulary for halfedge meshes *)

From Coq Require Import List Arith Bool Sorting.Sorted.
From Verif Require Import Scalar Linal Result ModelMesh.
Import ListNotations.

Section Spec.
  Context {S : Scalar} (L : Linal S).

  (** corner [c] (0, 1, 2) of a triangle *)
  Definition corner (t : triangle S) (c : nat) : point S :=
    let '(p0, p1, p2) := t in
    match c with 0 => p0 | 1 => p1 | _ => p2 end.

  (** [p] is what the mesh stores for the given point [q]: [q] itself or a point
      that [operator==] identifies with it *)
  Definition stands_for (p q : point S) : Prop := p = q \/ veq L p q = true.

  (** [m], living at address [a], is the well formed mesh of the triangle
      sequence [ts] (nothing is said about opposite halfedges) *)
  Record well_formed (a : addr) (ts : list (triangle S)) (m : mesh S) : Prop := mkWf {
    wf_halfedge_count : length (m_halfedges m) = 3 * length ts;
    wf_facet_count : length (m_facets m) = length ts;
    wf_vertex_count : length (m_vertices m) = length (m_points m);
    (* facet k refers to its first halfedge *)
    wf_facet : forall k f, nth_error (m_facets m) k = Some f -> f_he f = 3 * k /\ f_ptr f = Some a;
    (* halfedge number c of facet k: cyclic links, and it starts at corner c of triangle k *)
    wf_halfedge : forall k t c, nth_error ts k = Some t -> c < 3 ->
      exists h p, nth_error (m_halfedges m) (3 * k + c) = Some h /\
        he_index h = 3 * k + c /\ he_facet h = k /\ he_ptr h = Some a /\
        he_next h = 3 * k + (c + 1) mod 3 /\ he_prev h = 3 * k + (c + 2) mod 3 /\
        nth_error (m_points m) (he_vertex h) = Some p /\ stands_for p (corner t c);
    (* a vertex lists exactly the halfedges starting at it, in increasing order *)
    wf_vertex : forall v x, nth_error (m_vertices m) v = Some x ->
      v_index x = v /\ v_ptr x = Some a /\ v_hes x <> [] /\ StronglySorted lt (v_hes x) /\
      forall i, In i (v_hes x) <-> exists h, nth_error (m_halfedges m) i = Some h /\ he_vertex h = v;
    (* no two mesh points compare equal *)
    wf_points_distinct : forall i j p q, i < j ->
      nth_error (m_points m) i = Some p -> nth_error (m_points m) j = Some q -> veq L p q = false;
    (* all of them are given points *)
    wf_points_given : forall p, In p (m_points m) -> exists t c, In t ts /\ c < 3 /\ p = corner t c
  }.

  (** the halfedge at position [i] runs from vertex [u] to vertex [v] *)
  Definition runs (m : mesh S) (i u v : nat) : Prop :=
    exists h n, nth_error (m_halfedges m) i = Some h /\ he_vertex h = u /\
      nth_error (m_halfedges m) (he_next h) = Some n /\ he_vertex n = v.

  (** position [i] has opposite [j] *)
  Definition opposite_of (m : mesh S) (i j : nat) : Prop :=
    exists h, nth_error (m_halfedges m) i = Some h /\ he_opp h = j.

  (** the directed edges of a triangle sequence *)
  Definition tri_edges (t : triangle S) : list (point S * point S) :=
    let '(p0, p1, p2) := t in [(p0, p1); (p1, p2); (p2, p0)].
  Definition edges_of (ts : list (triangle S)) : list (point S * point S) := flat_map tri_edges ts.
  (** the points of a triangle sequence *)
  Definition points_of (ts : list (triangle S)) : list (point S) :=
    flat_map (fun t => let '(p0, p1, p2) := t in [p0; p1; p2]) ts.

  (** calls made by a client that builds a mesh, and the triangles among them *)
  Inductive mesh_op := AddTriangle (t : triangle S) | SetOpposites.
  Definition mesh_step (W : nat) (dbg : bool) (a : addr) (SZ : nat) (m : mesh S) (o : mesh_op) : res (mesh S) :=
    match o with
    | AddTriangle t => add_triangle L W dbg a m t
    | SetOpposites => set_opposite_halfedges L dbg a SZ m
    end.
  Definition mesh_run (W : nat) (dbg : bool) (a : addr) (SZ : nat) (hist : list mesh_op) : res (mesh S) :=
    foldM (mesh_step W dbg a SZ) hist empty_mesh.
  Definition added (hist : list mesh_op) : list (triangle S) :=
    flat_map (fun o => match o with AddTriangle t => [t] | SetOpposites => [] end) hist.
  (** add all triangles, then pair the halfedges (what the builders do) *)
  Definition built (W : nat) (dbg : bool) (a : addr) (SZ : nat) (ts : list (triangle S)) : res (mesh S) :=
    mesh_run W dbg a SZ (map AddTriangle ts ++ [SetOpposites]).

  (** position [j] has the same directed edge as position [i] *)
  Definition same_edge (ts : list (triangle S)) (i j : nat) : Prop :=
    j < 3 * length ts /\ nth_error (edges_of ts) j = nth_error (edges_of ts) i.

  (** no element occurs three times *)
  Definition at_most_twice {A} (es : list A) : Prop :=
    forall i j k e, i < j < k -> nth_error es i = Some e -> nth_error es j = Some e -> nth_error es k = Some e -> False.

  (** a closed consistently oriented surface: every directed edge occurs once,
      no edge is degenerate, and the reverse of every edge occurs as well *)
  Definition closed_oriented {A} (es : list (A * A)) : Prop :=
    NoDup es /\ (forall u v, In (u, v) es -> u <> v /\ In (v, u) es).
End Spec.
