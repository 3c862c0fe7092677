(** * Specification of the validity of arbitrary meshes *)

From Coq Require Import List Arith Sorting.Sorted.
From Verif Require Import Scalar Linal Result ModelMesh.
Import ListNotations.

Section Spec.
  Context {S : Scalar} (W : nat).

  (** an index that is not the reserved one *)
  Definition given (i : nat) : Prop := i <> W - 1.

  Definition good_vertex (v : vertex) : Prop :=
    v_ptr v <> None /\ given (v_index v) /\ Sorted le (v_hes v) /\ forall k, In k (v_hes v) -> given k.

  (** the mesh at the pointer of [h] has the vertex, opposite, next and previous
      halfedge that [h] names; the vertex lists [h], the others link back to it *)
  Definition good_links (m : mesh S) (h : halfedge) : Prop :=
    exists v o n p, nth_error (m_vertices m) (he_vertex h) = Some v /\ nth_error (m_halfedges m) (he_opp h) = Some o /\
      nth_error (m_halfedges m) (he_next h) = Some n /\ nth_error (m_halfedges m) (he_prev h) = Some p /\
      In (he_index h) (v_hes v) /\ he_opp o = he_index h /\ he_prev n = he_index h /\ he_next p = he_index h.
  Definition good_halfedge (mm : mem S) (h : halfedge) : Prop :=
    given (he_index h) /\ given (he_vertex h) /\ given (he_facet h) /\ given (he_next h) /\ given (he_prev h) /\ given (he_opp h) /\
    exists a m, he_ptr h = Some a /\ mm a = Some m /\ good_links m h.

  Definition good_facet (f : facet) : Prop := given (f_he f) /\ f_ptr f <> None.

  Definition good_mesh (mm : mem S) (m : mesh S) : Prop :=
    (forall v, In v (m_vertices m) -> good_vertex v) /\ (forall h, In h (m_halfedges m) -> good_halfedge mm h) /\
    (forall f, In f (m_facets m) -> good_facet f).

  (** what the check needs to look at exists *)
  Definition readable (mm : mem S) (h : halfedge) : Prop :=
    forall a, he_ptr h = Some a -> exists m, mm a = Some m /\
      he_vertex h < length (m_vertices m) /\ he_opp h < length (m_halfedges m) /\
      he_next h < length (m_halfedges m) /\ he_prev h < length (m_halfedges m).

  (** the halfedges of the mesh at [a] know their position and their mesh *)
  Definition numbered (a : addr) (m : mesh S) : Prop :=
    forall i h, nth_error (m_halfedges m) i = Some h -> he_index h = i /\ he_ptr h = Some a.

  (** [l] runs once around a closed chain of next halfedges, starting at position [i] *)
  Definition loop_from (m : mesh S) (i : nat) (l : list halfedge) : Prop :=
    NoDup (map he_index l) /\ l <> [] /\
    (exists h, nth_error l 0 = Some h /\ nth_error (m_halfedges m) i = Some h) /\
    forall k h, nth_error l k = Some h ->
      exists n, nth_error (m_halfedges m) (he_next h) = Some n /\
        (nth_error l (k + 1) = Some n \/ (k + 1 = length l /\ nth_error l 0 = Some n)).
End Spec.
