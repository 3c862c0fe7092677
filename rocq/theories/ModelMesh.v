(** * The halfedge mesh  (src/include/Geometry/HalfedgeMesh, MeshTriangleAdder.hpp)

    [W] is the number of values of the unsigned index type ([TIndex], e.g.
    [2^64] for [std::size_t]); the conversion of a size to an index is taken
    modulo [W].  A [std::vector] is a list, [v[i]] outside the vector is [UB].

    Mesh elements carry a raw pointer to their mesh object.  Objects live at
    addresses; a pointer is [Some a] or [None] (nullptr).  A memory [mem] gives
    the mesh object alive at an address. *)

From Coq Require Import List Arith Bool.
From Verif Require Import Scalar Linal Result ModelKdTree.
Import ListNotations.

(** ** Containers *)

(** [v[i]] of std::vector *)
Definition at_ {A} (l : list A) (i : nat) : res A :=
  match nth_error l i with Some x => Ok x | None => UB end.

(** [f(v[i])] with a modifying [f]; [UB] outside the vector *)
Fixpoint upd {A} (l : list A) (i : nat) (f : A -> A) : res (list A) :=
  match l, i with
  | [], _ => UB
  | x :: r, O => Ok (f x :: r)
  | x :: r, S k => let* r' := upd r k f in Ok (x :: r')
  end.

(** a loop over a sequence with a body that may fail *)
Fixpoint foldM {A St} (f : St -> A -> res St) (l : list A) (s : St) : res St :=
  match l with
  | [] => Ok s
  | x :: r => let* s' := f s x in foldM f r s'
  end.

(** a loop that pushes back one element per iteration *)
Fixpoint mapM {A B} (f : A -> res B) (l : list A) : res (list B) :=
  match l with
  | [] => Ok []
  | x :: r => let* y := f x in let* ys := mapM f r in Ok (y :: ys)
  end.

(** [std::sort] with comparator [lt] (C++ standard [sort]): insertion sort, the
    result of any sorting algorithm if [lt] is a strict total order. *)
Fixpoint ins_sorted {A} (lt : A -> A -> bool) (x : A) (l : list A) : list A :=
  match l with
  | [] => [x]
  | y :: r => if lt y x then y :: ins_sorted lt x r else x :: l
  end.
Definition std_sort {A} (lt : A -> A -> bool) (l : list A) : list A :=
  fold_right (ins_sorted lt) [] l.

(** [std::is_sorted] with operator< *)
Fixpoint is_sorted (l : list nat) : bool :=
  match l with
  | x :: (y :: _) as r => negb (y <? x) && is_sorted r
  | _ => true
  end.

(** [std::unique] + erase with comparison [eq]: drops every element equal to the
    last one kept. *)
Fixpoint std_unique_from {A} (eq : A -> A -> bool) (x : A) (l : list A) : list A :=
  match l with
  | [] => [x]
  | y :: r => if eq x y then std_unique_from eq x r else x :: std_unique_from eq y r
  end.
Definition std_unique {A} (eq : A -> A -> bool) (l : list A) : list A :=
  match l with [] => [] | x :: r => std_unique_from eq x r end.

(** ** Handles *)

(** MeshIndices.hpp:11-60 with Handle.hpp:16,26: an index is valid unless it is
    the maximum of its type; the default constructed index is that maximum. *)
Definition inv_idx (W : nat) : nat := W - 1.
Definition idx_valid (W i : nat) : bool := negb (i =? W - 1).

Definition addr := nat.
Definition ptr := option addr.
Definition ptr_eqb (p q : ptr) : bool :=
  match p, q with
  | None, None => true
  | Some a, Some b => a =? b
  | _, _ => false
  end.
Definition not_null (p : ptr) : bool := match p with None => false | Some _ => true end.

(** ** Elements *)

(** Vertex members (Vertex.hpp:126-128) *)
Record vertex := mkVertex { v_index : nat; v_hes : list nat; v_ptr : ptr }.
(** Halfedge members (Halfedge.hpp:113-119) *)
Record halfedge := mkHe {
  he_index : nat; he_facet : nat; he_vertex : nat;
  he_next : nat; he_prev : nat; he_opp : nat; he_ptr : ptr }.
(** Facet members (Facet.hpp:61-62) *)
Record facet := mkFacet { f_he : nat; f_ptr : ptr }.

Definition set_facet (k : nat) (h : halfedge) : halfedge :=   (* Halfedge.hpp:68 *)
  mkHe (he_index h) k (he_vertex h) (he_next h) (he_prev h) (he_opp h) (he_ptr h).
Definition set_next (k : nat) (h : halfedge) : halfedge :=    (* Halfedge.hpp:65 *)
  mkHe (he_index h) (he_facet h) (he_vertex h) k (he_prev h) (he_opp h) (he_ptr h).
Definition set_prev (k : nat) (h : halfedge) : halfedge :=    (* Halfedge.hpp:66 *)
  mkHe (he_index h) (he_facet h) (he_vertex h) (he_next h) k (he_opp h) (he_ptr h).
Definition set_opp (k : nat) (h : halfedge) : halfedge :=     (* Halfedge.hpp:67 *)
  mkHe (he_index h) (he_facet h) (he_vertex h) (he_next h) (he_prev h) k (he_ptr h).

(** Vertex::addHalfedgeIndex (Vertex.hpp:48-52) *)
Definition addHalfedgeIndex (h : nat) (v : vertex) : vertex :=
  mkVertex (v_index v) (std_sort Nat.ltb (v_hes v ++ [h])) (v_ptr v).

Section Mesh.
  Context {S : Scalar} (L : Linal S).

  Definition point := vec S 3.
  (** Triangle<T,3> (Triangle.hpp:11-28) *)
  Definition triangle := (point * point * point)%type.

  (** HalfedgeMesh members (HalfedgeMesh.hpp:125-128) with the points of
      MeshPoints (MeshPoints.hpp:72) *)
  Record mesh := mkMesh {
    m_vertices : list vertex;
    m_halfedges : list halfedge;
    m_facets : list facet;
    m_points : list point }.

  (** HalfedgeMesh() (HalfedgeMesh.hpp:36) *)
  Definition empty_mesh : mesh := mkMesh [] [] [] [].

  Definition mem := addr -> option mesh.
  (** a memory whose only mesh object is [m] at address [a] *)
  Definition only (a : addr) (m : mesh) : mem := fun x => if x =? a then Some m else None.

  (** [*p] *)
  Definition deref (mm : mem) (p : ptr) : res mesh :=
    match p with
    | None => UB
    | Some a => match mm a with Some m => Ok m | None => UB end
    end.

  (** *** Navigation *)

  (** HalfedgeMesh::getVector (HalfedgeMesh.hpp:44) with MeshPoints::getPoint
      (MeshPoints.hpp:33) *)
  Definition mesh_getVector (m : mesh) (v : vertex) : res point := at_ (m_points m) (v_index v).
  (** Vertex::getVector (Vertex.hpp:44) *)
  Definition getVector (mm : mem) (v : vertex) : res point :=
    let* m := deref mm (v_ptr v) in mesh_getVector m v.
  (** Halfedge::getVertex, getFacet, getNext, getPrevious, getOpposite, getNextVertex
      (Halfedge.hpp:44-63) *)
  Definition getVertex (mm : mem) (h : halfedge) : res vertex :=
    let* m := deref mm (he_ptr h) in at_ (m_vertices m) (he_vertex h).
  Definition getFacet (mm : mem) (h : halfedge) : res facet :=
    let* m := deref mm (he_ptr h) in at_ (m_facets m) (he_facet h).
  Definition getNext (mm : mem) (h : halfedge) : res halfedge :=
    let* m := deref mm (he_ptr h) in at_ (m_halfedges m) (he_next h).
  Definition getPrevious (mm : mem) (h : halfedge) : res halfedge :=
    let* m := deref mm (he_ptr h) in at_ (m_halfedges m) (he_prev h).
  Definition getOpposite (mm : mem) (h : halfedge) : res halfedge :=
    let* m := deref mm (he_ptr h) in at_ (m_halfedges m) (he_opp h).
  Definition getNextVertex (mm : mem) (h : halfedge) : res vertex :=
    let* n := getNext mm h in getVertex mm n.
  (** Facet::getHalfedge (Facet.hpp:43-44) *)
  Definition facet_getHalfedge (mm : mem) (f : facet) : res halfedge :=
    let* m := deref mm (f_ptr f) in at_ (m_halfedges m) (f_he f).
  (** Vertex::calcHalfedges (Vertex.hpp:54-62) *)
  Definition calcHalfedges (mm : mem) (v : vertex) : res (list halfedge) :=
    mapM (fun i => let* m := deref mm (v_ptr v) in at_ (m_halfedges m) i) (v_hes v).

  (** *** Equality *)

  (** Vertex::is_equal_impl, operator== (Vertex.hpp:71,103-124): the loop runs
      over the indices of the left operand and reads the right one unchecked *)
  Fixpoint hes_equal (l r : list nat) : res bool :=
    match l, r with
    | [], _ => Ok true
    | _ :: _, [] => UB
    | x :: l', y :: r' => if x =? y then hes_equal l' r' else Ok false
    end.
  Definition vertex_eq (u v : vertex) : res bool :=
    if negb (ptr_eqb (v_ptr u) (v_ptr v)) then Ok false
    else if negb (v_index u =? v_index v) then Ok false
    else hes_equal (v_hes u) (v_hes v).
  (** Halfedge::operator== (Halfedge.hpp:71) *)
  Definition halfedge_eq (g h : halfedge) : bool := he_index g =? he_index h.
  (** Facet::operator== (Facet.hpp:48) *)
  Definition facet_eq (f g : facet) : bool := (f_he f =? f_he g) && ptr_eqb (f_ptr f) (f_ptr g).

  (** operator!= (Vertex.hpp:72, Halfedge.hpp:72, Facet.hpp:49): [!(rhs == *this)] *)
  Definition vertex_ne (u v : vertex) : res bool := let* b := vertex_eq v u in Ok (negb b).
  Definition halfedge_ne (g h : halfedge) : bool := negb (halfedge_eq h g).
  Definition facet_ne (f g : facet) : bool := negb (facet_eq g f).

  (** HalfedgeMesh::contains (HalfedgeMesh.hpp:98-120); the overload for points
      (line 122) does not compile when used *)
  Fixpoint contains_vertex_in (v : vertex) (l : list vertex) : res bool :=
    match l with
    | [] => Ok false
    | u :: r => let* b := vertex_eq v u in if b then Ok true else contains_vertex_in v r
    end.
  Definition contains_vertex (m : mesh) (v : vertex) : res bool := contains_vertex_in v (m_vertices m).
  Definition contains_halfedge (m : mesh) (h : halfedge) : bool := existsb (halfedge_eq h) (m_halfedges m).
  Definition contains_facet (m : mesh) (f : facet) : bool := existsb (facet_eq f) (m_facets m).

  (** *** Validity *)
  Section Width.
  Context (W : nat) (dbg : bool).

  (** Vertex::is_valid (Vertex.hpp:64-69,75-101) *)
  Definition vertex_is_valid (v : vertex) : res bool :=
    let b := not_null (v_ptr v) && idx_valid W (v_index v) && is_sorted (v_hes v)
             && forallb (idx_valid W) (v_hes v) in
    let* _ := geo_assert dbg b in Ok b.

  (** Halfedge::is_valid_halfedge_impl (Halfedge.hpp:82-111) *)
  Definition halfedge_is_valid_impl (mm : mem) (h : halfedge) : res bool :=
    if negb (idx_valid W (he_index h) && idx_valid W (he_vertex h) && idx_valid W (he_facet h)
             && idx_valid W (he_next h) && idx_valid W (he_prev h) && idx_valid W (he_opp h)
             && not_null (he_ptr h))
    then Ok false
    else
      let* v := getVertex mm h in
      if negb (existsb (fun k => k =? he_index h) (v_hes v)) then Ok false
      else
        let* o := getOpposite mm h in
        if negb (he_opp o =? he_index h) then Ok false
        else
          let* n := getNext mm h in
          if negb (he_prev n =? he_index h) then Ok false
          else
            let* p := getPrevious mm h in
            Ok (he_next p =? he_index h).
  (** Halfedge::is_valid (Halfedge.hpp:74-79) *)
  Definition halfedge_is_valid (mm : mem) (h : halfedge) : res bool :=
    let* b := halfedge_is_valid_impl mm h in
    let* _ := geo_assert dbg b in Ok b.

  (** Facet::is_valid (Facet.hpp:51-59) *)
  Definition facet_is_valid (f : facet) : res bool :=
    let b := idx_valid W (f_he f) && not_null (f_ptr f) in
    let* _ := geo_assert dbg b in Ok b.

  Fixpoint all_valid {A} (p : A -> res bool) (l : list A) : res bool :=
    match l with
    | [] => Ok true
    | x :: r => let* b := p x in if b then all_valid p r else Ok false
    end.

  (** HalfedgeMesh::is_valid (HalfedgeMesh.hpp:69-96) *)
  Definition mesh_is_valid (mm : mem) (m : mesh) : res bool :=
    let* a := all_valid vertex_is_valid (m_vertices m) in
    if negb a then Ok false
    else
      let* b := all_valid (halfedge_is_valid mm) (m_halfedges m) in
      if negb b then Ok false
      else all_valid facet_is_valid (m_facets m).

  (** *** Adding triangles *)

  (** first index at which [p] holds *)
  Fixpoint find_index {A} (p : A -> bool) (l : list A) : option nat :=
    match l with
    | [] => None
    | x :: r => if p x then Some 0 else option_map Datatypes.S (find_index p r)
    end.

  (** MeshPoints::contains (MeshPoints.hpp:51-63); the counter has the index
      type, so the loop only sees the first [W] points and never ends if there
      are that many and none matches.  [None] = not found. *)
  Definition points_contains (pts : list point) (p : point) : res (option nat) :=
    match find_index (fun q : point => veq L q p) (firstn W pts) with
    | Some i => Ok (Some i)
    | None => if length pts <? W then Ok None else Diverge
    end.

  (** MeshPoints::add (MeshPoints.hpp:38-42): the index is
      [static_cast<index_type>(size) - 1] *)
  Definition points_add (pts : list point) (p : point) : list point * nat :=
    let pts' := pts ++ [p] in
    (pts', (length pts' mod W + (W - 1)) mod W).

  Section Adder.
  Context (self : addr).   (* MeshTriangleAdder::m_halfedgeMesh (MeshTriangleAdder.hpp:39) *)

  (** one iteration of create_or_find_vertex (MeshTriangleAdder.hpp:124-134) *)
  Definition create_or_find_vertex1 (m : mesh) (p : point) : res (mesh * nat) :=
    let* f := points_contains (m_points m) p in
    let '(m', i) :=
      match f with
      | Some i => (m, i)
      | None =>
          let '(pts', i) := points_add (m_points m) p in
          (mkMesh (m_vertices m ++ [mkVertex (length (m_vertices m) mod W) [] (Some self)])
                  (m_halfedges m) (m_facets m) pts', i)
      end in
    let* _ := geo_assert dbg (idx_valid W i) in
    Ok (m', i).

  (** create_or_find_vertex (MeshTriangleAdder.hpp:117-135) *)
  Definition create_or_find_vertex (m : mesh) (t : triangle) : res (mesh * (nat * nat * nat)) :=
    let '(p0, p1, p2) := t in
    let* (m0, i0) := create_or_find_vertex1 m p0 in
    let* (m1, i1) := create_or_find_vertex1 m0 p1 in
    let* (m2, i2) := create_or_find_vertex1 m1 p2 in
    Ok (m2, (i0, i1, i2)).

  (** one iteration of the loop over the corners (MeshTriangleAdder.hpp:59-80)
      for corner vertex [v]; [first] is [i == 0].  Result: mesh and facetIdx. *)
  Definition add_corner (first : bool) (st : mesh * nat) (v : nat) : res (mesh * nat) :=
    let '(m, facetIdx) := st in
    let hidx := length (m_halfedges m) mod W in
    let* _ := geo_assert dbg (idx_valid W hidx) in
    let '(facets, facetIdx) :=
      if first then (m_facets m ++ [mkFacet hidx (Some self)], length (m_facets m) mod W)
      else (m_facets m, facetIdx) in
    let* _ := if first then geo_assert dbg (idx_valid W facetIdx) else Ok tt in
    let* _ := geo_assert dbg (idx_valid W v) in
    let halfedges := m_halfedges m ++
      [mkHe hidx (inv_idx W) v (inv_idx W) (inv_idx W) (inv_idx W) (Some self)] in
    let* _ := geo_assert dbg (idx_valid W hidx) in
    let* _ := geo_assert dbg (v <? length (m_vertices m)) in
    let* vertices := upd (m_vertices m) v (addHalfedgeIndex hidx) in
    Ok (mkMesh vertices halfedges facets (m_points m), facetIdx).

  (** the linking loop (MeshTriangleAdder.hpp:84-97) *)
  Definition link (facetIdx : nat) (m : mesh) : res mesh :=
    let startIdx := (length (m_halfedges m) - 3) mod W in
    let endIdx := length (m_halfedges m) mod W in
    let lastElemIdx := (endIdx + (W - 1)) mod W in
    let* hes := foldM (fun hes i =>
        let nextHe := if i =? lastElemIdx then startIdx else i + 1 in
        let previousHe := if i =? startIdx then lastElemIdx else i - 1 in
        let* h1 := upd hes i (set_facet facetIdx) in
        let* h2 := upd h1 i (set_next nextHe) in
        upd h2 i (set_prev previousHe))
      (seq startIdx (endIdx - startIdx)) (m_halfedges m) in
    Ok (mkMesh (m_vertices m) hes (m_facets m) (m_points m)).

  (** MeshTriangleAdder::operator() (MeshTriangleAdder.hpp:47-98) *)
  Definition add_triangle (m : mesh) (t : triangle) : res mesh :=
    let* (m0, (i0, i1, i2)) := create_or_find_vertex m t in
    let* _ := geo_assert dbg (idx_valid W i0 && idx_valid W i1 && idx_valid W i2) in
    let* s1 := add_corner true (m0, inv_idx W) i0 in
    let* s2 := add_corner false s1 i1 in
    let* (m3, facetIdx) := add_corner false s2 i2 in
    let* _ := geo_assert dbg (idx_valid W facetIdx) in
    let* _ := geo_assert dbg (3 <=? length (m_halfedges m3)) in
    link facetIdx m3.

  (** a sequence of calls of the adder *)
  Definition add_triangles (m : mesh) (ts : list triangle) : res mesh := foldM add_triangle ts m.

  (** *** Opposite halfedges (MeshTriangleAdder.hpp:100-105,137-180)

      The static function only receives the mesh; the elements reach it through
      their pointers, so the mesh is at [self].  [SZ] is the size type of the
      kd-tree. *)
  Context (SZ : nat).

  Definition start_point (m : mesh) (h : halfedge) : res point :=
    let* v := getVertex (only self m) h in getVector (only self m) v.
  Definition end_point (m : mesh) (h : halfedge) : res point :=
    let* v := getNextVertex (only self m) h in getVector (only self m) v.

  (** first loop (MeshTriangleAdder.hpp:141-158); [std::size_t i] is not reduced *)
  Definition index_halfedge (m : mesh) (t : kdtree S 3 (list nat)) (i : nat) : res (kdtree S 3 (list nat)) :=
    let* h := at_ (m_halfedges m) i in
    let* start := start_point m h in
    if search L SZ t start
    then let* b := nearest SZ t start in
         Ok (mkKd (update_payload (fun l => l ++ [i]) (b_path b) (root t)) (msize t))
    else Ok (fst (insert L SZ t start [i])).
  Definition build_index (m : mesh) : res (kdtree S 3 (list nat)) :=
    foldM (index_halfedge m) (seq 0 (length (m_halfedges m))) kd_empty.

  (** the inner loop (MeshTriangleAdder.hpp:167-177): the first candidate whose
      end point equals [start] *)
  Fixpoint find_candidate (m : mesh) (start : point) (l : list nat) : res (option nat) :=
    match l with
    | [] => Ok None
    | k :: r =>
        let* c := at_ (m_halfedges m) k in
        let* e := end_point m c in
        if veq L e start then Ok (Some k) else find_candidate m start r
    end.

  Definition with_halfedges (m : mesh) (hes : list halfedge) : mesh :=
    mkMesh (m_vertices m) hes (m_facets m) (m_points m).

  (** body of the second loop (MeshTriangleAdder.hpp:161-179) for the halfedge at
      position [i] *)
  Definition set_opposite1 (t : kdtree S 3 (list nat)) (m : mesh) (i : nat) : res mesh :=
    let* h := at_ (m_halfedges m) i in
    let* start := end_point m h in
    let* end_ := start_point m h in
    let* b := nearest SZ t end_ in
    let* f := find_candidate m start (b_payload b) in
    let* m' :=
      match f with
      | None => Ok m
      | Some k =>
          let* c := at_ (m_halfedges m) k in
          let* hes1 := upd (m_halfedges m) i (set_opp (he_index c)) in
          let* hes2 := upd hes1 k (set_opp (he_index h)) in
          Ok (with_halfedges m hes2)
      end in
    let* _ := geo_assert dbg (match f with Some _ => true | None => false end) in
    Ok m'.

  Definition set_opposite_halfedges (m : mesh) : res mesh :=
    let* t := build_index m in
    foldM (set_opposite1 t) (seq 0 (length (m_halfedges m))) m.
  End Adder.
  End Width.

  (** *** Queries *)

  (** loop of calc_halfedges (CalcFaceHalfedges.hpp:28-32).  The loop reads only
      immutable data, so a run that has not ended after as many steps as there
      are halfedges never ends; that is the fuel given below. *)
  Fixpoint walk (mm : mem) (f : facet) (fuel : nat) (h : halfedge) : res (list halfedge) :=
    let* s := facet_getHalfedge mm f in
    let* n := getNext mm h in
    if halfedge_ne s n
    then match fuel with
         | O => Diverge
         | Datatypes.S k => let* r := walk mm f k n in Ok (n :: r)
         end
    else Ok [].
  (** calc_halfedges (CalcFaceHalfedges.hpp:16-35) *)
  Definition calc_halfedges (mm : mem) (f : facet) : res (list halfedge) :=
    let* m := deref mm (f_ptr f) in
    let* h := facet_getHalfedge mm f in
    let* n := getNext mm h in
    let* r := walk mm f (length (m_halfedges m)) n in
    Ok (h :: n :: r).

  (** calc_triangle_indices (CalcTriangleIndices.hpp:14-43); the loop is the one
      of calc_halfedges; [U] is the number of values of the result type *)
  Definition calc_triangle_indices (U : nat) (mm : mem) (facets : list facet) : res (list nat) :=
    let* ls := mapM (calc_halfedges mm) facets in
    Ok (map (fun h => he_vertex h mod U) (concat ls)).

  (** Edge::create (CalcTriangleIndices.hpp:56-68) *)
  Definition edge_create (dbg : bool) (U i0 i1 : nat) : res (nat * nat) :=
    let* _ := geo_assert dbg (i0 <=? U - 1) in
    let* _ := geo_assert dbg (i1 <=? U - 1) in
    let v0 := i0 mod U in
    let v1 := i1 mod U in
    Ok (if v1 <? v0 then (v1, v0) else (v0, v1)).
  (** Edge::operator<, operator== (CalcTriangleIndices.hpp:70-71) *)
  Definition edge_lt (a b : nat * nat) : bool :=
    (fst a <? fst b) || ((fst a =? fst b) && (snd a <? snd b)).
  Definition edge_eq (a b : nat * nat) : bool :=
    ((fst a =? fst b) && (snd a =? snd b)) || ((fst a =? snd b) && (snd a =? fst b)).
  (** lower_bound, comparison and insert (CalcTriangleIndices.hpp:79-83).
      [std::lower_bound] on a sorted range is the first element not less. *)
  Fixpoint edge_insert (e : nat * nat) (l : list (nat * nat)) : list (nat * nat) :=
    match l with
    | [] => [e]
    | x :: r => if edge_lt x e then x :: edge_insert e r
                else if negb (edge_eq x e) then e :: l else l
    end.
  (** calc_line_indices (CalcTriangleIndices.hpp:45-88); the returned buffer
      reinterprets the array of edges as an array of [U] (line 87) *)
  Definition calc_line_indices (dbg : bool) (U : nat) (mm : mem) (m : mesh) : res (list nat) :=
    let* es := foldM (fun es h =>
        let* n := getNext mm h in
        let* e := edge_create dbg U (he_vertex h) (he_vertex n) in
        Ok (edge_insert e es)) (m_halfedges m) [] in
    Ok (concat (map (fun e => [fst e; snd e]) es)).

  (** calc_vertex_facets (CalcVertexFacets.hpp:13-27) *)
  Definition calc_vertex_facets (mm : mem) (v : vertex) : res (list facet) :=
    let* hs := calcHalfedges mm v in mapM (getFacet mm) hs.

  (** calc_facet_normal (CalcFacetNormal.hpp:11-27) *)
  Definition calc_facet_normal (mm : mem) (f : facet) : res point :=
    let* he := facet_getHalfedge mm f in
    let* next := getNext mm he in
    let* a := getVertex mm he in
    let* v0 := getVector mm a in
    let* b := getVertex mm next in
    let* v1 := getVector mm b in
    let* c := getNextVertex mm next in
    let* v2 := getVector mm c in
    Ok (normalize (cross (vsub v1 v0) (vsub v2 v1))).

  (** the comparator of CalcVertexNormals.hpp:37-38 *)
  Definition lex_lt (a b : point) : bool :=
    let '(a0, (a1, (a2, _))) := a in
    let '(b0, (b1, (b2, _))) := b in
    ((a0 <? b0) || ((a0 =? b0) && (a1 <? b1)) || ((a0 =? b0) && (a1 =? b1) && (a2 <? b2)))%S%bool.

  (** body of the loop of calc_vertex_normals (CalcVertexNormals.hpp:28-48);
      the result type is the scalar type of the mesh *)
  Definition vertex_normal (mm : mem) (v : vertex) : res point :=
    let* facets := calc_vertex_facets mm v in
    let* ns := mapM (fun f => let* n := calc_facet_normal mm f in Ok (normalize n)) facets in
    let distinct := std_unique (@veq S L 3) (std_sort lex_lt ns) in
    Ok (normalize (fold_left vadd distinct (mk3 s0 s0 s0))).
  (** calc_vertex_normals (CalcVertexNormals.hpp:15-52) *)
  Definition calc_vertex_normals (mm : mem) (m : mesh) : res (list point) :=
    mapM (vertex_normal mm) (m_vertices m).

  (** MeshPoints::transform (MeshPoints.hpp:65-69) *)
  Definition translate_points (m : mesh) (d : point) : mesh :=
    mkMesh (m_vertices m) (m_halfedges m) (m_facets m) (map (fun p => vadd p d) (m_points m)).

  (** vectorsToComponents (MeshPoints.hpp:75-85) for U = value_type *)
  Definition vectorsToComponents (l : list point) : list S :=
    concat (map (fun p => [vnth s0 0 p; vnth s0 1 p; vnth s0 2 p]) l).

  (** HalfedgeMesh(HalfedgeMesh&&) = default (HalfedgeMesh.hpp:40): the vectors
      are moved member by member, which leaves the source vectors empty; the
      elements, and with them their pointers, are unchanged.  [b] is the address
      of the new object, [a] that of the source.  The move assignment (line 41) to
      an object at [b] has the same effect. *)
  Definition move_mesh (mm : mem) (a b : addr) : mem :=
    fun x => if x =? b then mm a else if x =? a then Some empty_mesh else mm x.
  (** destruction of the object at [a] *)
  Definition destroy (mm : mem) (a : addr) : mem := fun x => if x =? a then None else mm x.
End Mesh.

Arguments mesh S : clear implicits.
Arguments mem S : clear implicits.
Arguments point S : clear implicits.
Arguments triangle S : clear implicits.
#[global] Arguments point S : simpl never.
#[global] Arguments triangle S : simpl never.
