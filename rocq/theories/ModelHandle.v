(** * Handles (Handle.hpp, HalfedgeMesh/MeshIndices.hpp)

    [T] is an integer type; [tmax] is [std::numeric_limits<T>::max()].  A value
    of [T] is an integer, its range is a hypothesis of the theorems. *)

From Coq Require Import ZArith Bool.
Local Open Scope Z_scope.

(** member m_value (Handle.hpp:35) *)
Record handle := mkHandle { h_value : Z }.

Section Handle.
  Context (tmax : Z).

  (** invalidHandles, nullHandle (Handle.hpp:15-16) *)
  Definition invalidHandles : Z := tmax.
  Definition nullHandle : Z := 0.
  (** Handle() (Handle.hpp:18 with 35) *)
  Definition handle_default : handle := mkHandle nullHandle.
  (** VertexIndex(), HalfedgeIndex(), FacetIndex() (MeshIndices.hpp:16-19, 32-35, 48-51) *)
  Definition index_default : handle := mkHandle invalidHandles.
  (** is_valid (Handle.hpp:25) *)
  Definition handle_is_valid (h : handle) : bool := negb (h_value h =? invalidHandles).

  (** the comparison operators (Handle.hpp:27-32) *)
  Definition handle_eq (a b : handle) : bool := h_value a =? h_value b.
  Definition handle_ne (a b : handle) : bool := negb (handle_eq b a).
  Definition handle_lt (a b : handle) : bool := h_value a <? h_value b.
  Definition handle_gt (a b : handle) : bool := handle_lt b a.
  Definition handle_le (a b : handle) : bool := negb (handle_lt b a).
  Definition handle_ge (a b : handle) : bool := negb (handle_lt a b).
End Handle.
