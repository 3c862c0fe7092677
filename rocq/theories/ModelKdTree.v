(** * KdTree  (src/include/Geometry/KdTree.hpp)

    The tree owns its nodes through [unique_ptr], so it is modelled by an
    inductive type; a [node_t*] into the tree is the path from the root to the
    node.  [SZ] is the number of values of the unsigned type [size_type] (the
    size type of the vector library is not known); [depth] and [m_size] wrap
    modulo [SZ].  A tree without payload is a tree with payload [unit]. *)

From Coq Require Import List Arith Bool.
From Verif Require Import Scalar Linal Result.
Import ListNotations.
Local Open Scope scalar_scope.

Section KdTree.
  Context {S : Scalar} (L : Linal S) (n : nat) {P : Type} (SZ : nat).

  (** Node (KdTree.hpp:50-77) *)
  Inductive tree :=
  | Leaf
  | Node (point : vec S n) (payload : P) (left right : tree).

  (** members m_root, m_size (KdTree.hpp:157-159) *)
  Record kdtree := mkKd { root : tree; msize : nat }.

  (** KdTree() (KdTree.hpp:94-98) *)
  Definition kd_empty : kdtree := mkKd Leaf 0.

  (** [depth + 1] converted to the parameter type [size_type] *)
  Definition next_depth (d : nat) : nat := (d + 1) mod SZ.

  (** insertHelper (KdTree.hpp:161-184); the increment of m_size is in [insert] *)
  Fixpoint insertHelper (node : tree) (p : vec S n) (v : P) (depth : nat) : tree * bool :=
    match node with
    | Leaf => (Node p v Leaf Leaf, true)
    | Node q w l r =>
        if veq L q p then (node, false)
        else
          let axis := depth mod n in
          if vnth s0 axis p <? vnth s0 axis q
          then let '(l', b) := insertHelper l p v (next_depth depth) in (Node q w l' r, b)
          else let '(r', b) := insertHelper r p v (next_depth depth) in (Node q w l r', b)
    end.

  (** insert (KdTree.hpp:106-121), with the m_size++ of line 166 *)
  Definition insert (t : kdtree) (p : vec S n) (v : P) : kdtree * bool :=
    let '(r, b) := insertHelper (root t) p v 0 in
    (mkKd r (if b then (msize t + 1) mod SZ else msize t), b).

  (** searchHelper (KdTree.hpp:186-207) *)
  Fixpoint searchHelper (node : tree) (p : vec S n) (depth : nat) : bool :=
    match node with
    | Leaf => false
    | Node q _ l r =>
        if veq L q p then true
        else
          let axis := depth mod n in
          if vnth s0 axis p <? vnth s0 axis q
          then searchHelper l p (next_depth depth)
          else searchHelper r p (next_depth depth)
    end.

  (** search (KdTree.hpp:123) *)
  Definition search (t : kdtree) (p : vec S n) : bool := searchHelper (root t) p 0.

  (** distance (KdTree.hpp:234-243): left-to-right accumulation from 0 *)
  Fixpoint sqsum (acc : S) {m} : vec S m -> vec S m -> S :=
    match m with
    | O => fun _ _ => acc
    | Datatypes.S k => fun a b =>
        let diff := fst a - fst b in sqsum (acc + diff * diff) (snd a) (snd b)
    end.
  Definition kd_distance (a b : vec S n) : S := ssqrt (sqsum s0 a b).

  (** a pointer to a node: the path from the root ([false] = left) *)
  Definition path := list bool.

  (** the pair ( *bestNode, bestDist ) *)
  Record best := mkBest { b_path : path; b_point : vec S n; b_payload : P; b_dist : S }.

  (** nearestHelper (KdTree.hpp:209-232) *)
  Fixpoint nearestHelper (node : tree) (here : path) (query : vec S n) (b : best) (depth : nat) : best :=
    match node with
    | Leaf => b
    | Node p v l r =>
        let dist := kd_distance p query in
        let b1 := if dist <? b_dist b then mkBest here p v dist else b in
        let axis := depth mod n in
        let diff := vnth s0 axis query - vnth s0 axis p in
        let go (right : bool) b :=
          if right then nearestHelper r (here ++ [true]) query b (next_depth depth)
          else nearestHelper l (here ++ [false]) query b (next_depth depth) in
        let b2 := go (negb (diff <? s0)) b1 in
        if sabs diff <? b_dist b2 then go (diff <? s0) b2 else b2
    end.

  (** nearest (KdTree.hpp:125-151), with and without payload *)
  Definition nearest (t : kdtree) (query : vec S n) : res best :=
    match root t with
    | Leaf => Throw
    | Node p v _ _ =>
        Ok (nearestHelper (root t) [] query (mkBest [] p v (kd_distance query p)) 0)
    end.

  (** writing through the [payload_t&] returned by nearest (KdTree.hpp:140-151) *)
  Fixpoint update_payload (f : P -> P) (pth : path) (node : tree) {struct node} : tree :=
    match node with
    | Leaf => Leaf
    | Node p v l r =>
        match pth with
        | [] => Node p (f v) l r
        | false :: k => Node p v (update_payload f k l) r
        | true :: k => Node p v l (update_payload f k r)
        end
    end.

  (** size, empty (KdTree.hpp:153-155) *)
  Definition size (t : kdtree) : nat := msize t.
  Definition empty (t : kdtree) : bool := Nat.eqb (msize t) 0.

  (** KdTree(KdTree&&) = default (KdTree.hpp:103): [unique_ptr] is nulled in the
      source, the integer m_size is copied.  Result: (new object, moved-from). *)
  Definition move_construct (t : kdtree) : kdtree * kdtree :=
    (mkKd (root t) (msize t), mkKd Leaf (msize t)).

  (** operator=(KdTree&&) = default (KdTree.hpp:104) of [src] to [dst], two
      different objects; the nodes of [dst] are destroyed.  Result:
      (assigned object, moved-from). *)
  Definition move_assign (dst src : kdtree) : kdtree * kdtree :=
    (mkKd (root src) (msize src), mkKd Leaf (msize src)).
End KdTree.

Arguments Leaf {S n P}.
Arguments Node {S n P} _ _ _ _.
Arguments kdtree S n P : clear implicits.
Arguments mkKd {S n P} _ _.
Arguments root {S n P} _.
Arguments msize {S n P} _.
Arguments mkBest {S n P} _ _ _ _.
Arguments b_path {S n P} _.
Arguments b_point {S n P} _.
Arguments b_payload {S n P} _.
Arguments b_dist {S n P} _.
Arguments size {S n P} _.
Arguments empty {S n P} _.
Arguments nearest {S n P} SZ t query.
Arguments search {S} L {n P} SZ t p.
Arguments insert {S} L {n P} SZ t p v.
Arguments kd_empty {S n P}.
Arguments kd_distance {S n} _ _.
Arguments move_construct {S n P} _.
Arguments move_assign {S n P} _ _.
Arguments update_payload {S n P} _ _ _.
