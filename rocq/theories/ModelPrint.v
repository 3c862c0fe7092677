(** * Printing mesh elements (HalfedgeMesh/DebugHelper.hpp)

    What is written to the stream is a list of pieces: text, a number of an index
    type, a coordinate.  How the stream formats numbers is not modelled;
    std::endl is the text of one newline. *)

From Coq Require Import List Arith Bool String.
From Verif Require Import Scalar Linal Result ModelMesh.
Import ListNotations.
Local Open Scope string_scope.
Local Open Scope list_scope.

Inductive piece (S : Scalar) := Txt (s : string) | Idx (i : nat) | Val (x : S).
Arguments Txt {S} s.
Arguments Idx {S} i.
Arguments Val {S} x.
Definition nl : string := String (Ascii.ascii_of_nat 10) EmptyString.

Section Print.
  Context {S : Scalar}.

  (** print_inline(vec3), print(vec3), print(vector<vec3>) (DebugHelper.hpp:13-32) *)
  Definition print_inline_vec (v : point S) : list (piece S) :=
    [Txt "vec: "; Val (vnth s0 0 v); Txt " "; Val (vnth s0 1 v); Txt " "; Val (vnth s0 2 v)].
  Definition print_vec (v : point S) : list (piece S) := print_inline_vec v ++ [Txt nl].
  Definition print_vecs (l : list (point S)) : list (piece S) := flat_map print_vec l.

  (** print of all elements of a vector of elements (lines 46-52, 68-75, 93-100) *)
  Definition print_all {A} (pr : A -> res (list (piece S))) (l : list A) : res (list (piece S)) :=
    foldM (fun out x => let* o := pr x in Ok (out ++ o)) l [].

  (** print(Vertex) (lines 34-43) *)
  Definition print_vertex (mm : mem S) (v : vertex) : res (list (piece S)) :=
    let* p := getVector mm v in
    Ok ([Txt "Vertex index: "; Idx (v_index v); Txt "; "] ++ print_inline_vec p ++ [Txt nl]).

  (** print_inline(Facet), print(Facet) (lines 54-66) *)
  Definition print_inline_facet (mm : mem S) (f : facet) : res (list (piece S)) :=
    let* h := facet_getHalfedge mm f in
    Ok [Txt "Facet halfedge index: "; Idx (he_facet h)].
  Definition print_facet (mm : mem S) (f : facet) : res (list (piece S)) :=
    let* o := print_inline_facet mm f in Ok (o ++ [Txt nl]).

  (** print(Halfedge) (lines 77-91) *)
  Definition print_halfedge (mm : mem S) (h : halfedge) : res (list (piece S)) :=
    let* f := getFacet mm h in
    let* v := getVertex mm h in
    let* p := getVector mm v in
    Ok ([Txt "Halfedge index: "; Idx (f_he f);
         Txt "; Halfedge vertex index: "; Idx (v_index v);
         Txt "; Opposite halfedge index: "; Idx (he_opp h);
         Txt "; Vertex vector, "] ++ print_inline_vec p ++
        [Txt "; "; Txt "Facet index: "; Idx (he_facet h); Txt nl]).
End Print.
