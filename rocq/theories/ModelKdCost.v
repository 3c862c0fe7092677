(** * Calls and nesting of the recursive functions of KdTree
      (src/include/Geometry/KdTree.hpp)

    The functions of [ModelKdTree] once more, counting the activations of the
    helper functions in the abstract machine: every helper calls itself through a
    pointer that is tested at the start of the call, so calls with a null pointer
    count.  (A compiler may turn the calls in tail position of insertHelper and
    searchHelper into loops; those of nearestHelper and of the destructors are
    not in tail position.) *)

From Coq Require Import List Arith Bool.
From Verif Require Import Scalar Linal Result ModelKdTree.
Import ListNotations.
Local Open Scope scalar_scope.

Section Cost.
  Context {S : Scalar} (L : Linal S) (n : nat) {P : Type} (SZ : nat).
  Notation tree := (@tree S n P).

  (** insertHelper (KdTree.hpp:161-184): result and nested activations *)
  Fixpoint insertHelper_c (node : tree) (p : vec S n) (v : P) (depth : nat) : (tree * bool) * nat :=
    match node with
    | Leaf => ((Node p v Leaf Leaf, true), 1)
    | Node q w l r =>
        if veq L q p then ((node, false), 1)
        else
          let axis := depth mod n in
          if vnth s0 axis p <? vnth s0 axis q
          then let '((l', b), k) := insertHelper_c l p v (next_depth SZ depth) in ((Node q w l' r, b), Datatypes.S k)
          else let '((r', b), k) := insertHelper_c r p v (next_depth SZ depth) in ((Node q w l r', b), Datatypes.S k)
    end.

  (** searchHelper (KdTree.hpp:186-207): result and nested activations *)
  Fixpoint searchHelper_c (node : tree) (p : vec S n) (depth : nat) : bool * nat :=
    match node with
    | Leaf => (false, 1)
    | Node q _ l r =>
        if veq L q p then (true, 1)
        else
          let axis := depth mod n in
          if vnth s0 axis p <? vnth s0 axis q
          then let '(b, k) := searchHelper_c l p (next_depth SZ depth) in (b, Datatypes.S k)
          else let '(b, k) := searchHelper_c r p (next_depth SZ depth) in (b, Datatypes.S k)
    end.

  (** what a call of nearestHelper costs: the calls made (itself included), the
      nested activations, the evaluations of distance *)
  Record cost := mkCost { calls : nat; nesting : nat; distances : nat }.

  (** nearestHelper (KdTree.hpp:209-232) *)
  Fixpoint nearestHelper_c (node : tree) (here : path) (query : vec S n) (b : best n) (depth : nat) : best n * cost :=
    match node with
    | Leaf => (b, mkCost 1 1 0)
    | Node p v l r =>
        let dist := kd_distance p query in
        let b1 := if dist <? b_dist b then mkBest here p v dist else b in
        let axis := depth mod n in
        let diff := vnth s0 axis query - vnth s0 axis p in
        let go (right : bool) b :=
          if right then nearestHelper_c r (here ++ [true]) query b (next_depth SZ depth)
          else nearestHelper_c l (here ++ [false]) query b (next_depth SZ depth) in
        let '(b2, c2) := go (negb (diff <? s0)) b1 in
        if sabs diff <? b_dist b2
        then let '(b3, c3) := go (diff <? s0) b2 in
             (b3, mkCost (1 + (calls c2 + calls c3)) (1 + Nat.max (nesting c2) (nesting c3)) (1 + (distances c2 + distances c3)))%nat
        else (b2, mkCost (1 + calls c2) (1 + nesting c2) (1 + distances c2))%nat
    end.

  (** nearest (KdTree.hpp:125-151): the helper's calls, and one distance more *)
  Definition nearest_c (t : kdtree S n P) (query : vec S n) : res (best n * cost) :=
    match root t with
    | Leaf => Throw
    | Node p v _ _ =>
        let '(b, c) := nearestHelper_c (root t) [] query (mkBest [] p v (kd_distance query p)) 0 in
        Ok (b, mkCost (calls c) (nesting c) (1 + distances c)%nat)
    end.

  (** the destructor of the tree: ~unique_ptr of m_root (KdTree.hpp:157) runs
      ~Node, which destroys the members right, left, nodeValue in this order
      (KdTree.hpp:60-63).  Result: the node values in the order of their
      destruction, and the nested activations of ~Node. *)
  Fixpoint destroy_c (node : tree) : list (vec S n * P) * nat :=
    match node with
    | Leaf => ([], 0%nat)
    | Node p v l r =>
        let '(a, i) := destroy_c r in
        let '(b, j) := destroy_c l in
        (a ++ b ++ [(p, v)], Datatypes.S (Nat.max i j))
    end.
End Cost.
Arguments nearest_c {S n P} SZ t query.
Arguments destroy_c {S n P} node.
Arguments insertHelper_c {S} L {n P} SZ node p v depth.
Arguments searchHelper_c {S} L {n P} SZ node p depth.
