(** * Specification of KdTree: a first-wins map from points to payloads *)

From Coq Require Import List Arith Bool.
From Verif Require Import Scalar Linal Result ModelKdTree.
Import ListNotations.

Section Spec.
  Context {S : Scalar} (L : Linal S) (n : nat) {P : Type} (SZ : nat).

  (** calls a client can make, and what it observes *)
  Inductive op :=
  | OpInsert (p : vec S n) (v : P)
  | OpSearch (p : vec S n)
  | OpSize
  | OpEmpty
  | OpNearest (q : vec S n).

  Inductive out :=
  | RBool (b : bool)
  | RNat (k : nat)
  | RFound (p : vec S n) (v : P)
  | RThrow
  | RBroken.

  (** the client-visible transition system of the modelled class *)
  Definition step (t : kdtree S n P) (o : op) : kdtree S n P * out :=
    match o with
    | OpInsert p v => let '(t', b) := insert L SZ t p v in (t', RBool b)
    | OpSearch p => (t, RBool (search L SZ t p))
    | OpSize => (t, RNat (size t))
    | OpEmpty => (t, RBool (empty t))
    | OpNearest q =>
        (t, match nearest SZ t q with
            | Ok b => RFound (b_point b) (b_payload b)
            | Throw => RThrow
            | _ => RBroken
            end)
    end.

  Definition run (hist : list op) : kdtree S n P :=
    fold_left (fun t o => fst (step t o)) hist kd_empty.

  (** what has been inserted by a history *)
  Fixpoint inserted (hist : list op) : list (vec S n * P) :=
    match hist with
    | [] => []
    | OpInsert p v :: h => (p, v) :: inserted h
    | _ :: h => inserted h
    end.

  Definition points (hist : list op) : list (vec S n) := map fst (inserted hist).

  (** what has been stored: the insertions that returned true *)
  Definition accepted (hist : list op) : list (vec S n * P) :=
    snd (fold_left (fun '(t, acc) o =>
      let '(t', r) := step t o in
      (t', match o, r with OpInsert p v, RBool true => (p, v) :: acc | _, _ => acc end)) hist (kd_empty, [])).

  (** the computed distance: square root of the sum of the squared differences,
      summed from the first coordinate to the last *)
  Definition cdist (a b : vec S n) : S :=
    ssqrt (fold_left (fun acc i => let d := ssub (vnth s0 i a) (vnth s0 i b) in sadd acc (smul d d)) (seq 0 n) s0).

  (** the points mentioned by a call *)
  Definition op_points (o : op) : list (vec S n) :=
    match o with
    | OpInsert p _ | OpSearch p | OpNearest p => [p]
    | _ => []
    end.

  (** the first payload given for a point *)
  Definition first_payload (l : list (vec S n * P)) (p : vec S n) (v : P) : Prop :=
    exists l1 l2, l = l1 ++ (p, v) :: l2 /\ ~ In p (map fst l1).

  (** [k] is the number of distinct elements of [l] *)
  Definition distinct_count {A} (l : list A) (k : nat) : Prop :=
    exists d, NoDup d /\ (forall x, In x d <-> In x l) /\ length d = k.

  (** expected result of a call after a history *)
  Definition kd_spec (hist : list op) (o : op) (r : out) : Prop :=
    match o with
    | OpInsert p v => exists b, r = RBool b /\ (b = true <-> ~ In p (points hist))
    | OpSearch p => exists b, r = RBool b /\ (b = true <-> In p (points hist))
    | OpSize => exists k, distinct_count (points hist) k /\ r = RNat (k mod SZ)
    | OpEmpty => exists k b, distinct_count (points hist) k /\ r = RBool b /\ (b = true <-> k mod SZ = 0)
    | OpNearest q =>
        (points hist = [] /\ r = RThrow) \/
        (exists p v, r = RFound p v /\ first_payload (inserted hist) p v)
    end.

  (** On the points of [G], [operator==] is equality.  With an exact
      [operator==] this holds for all points; with a tolerance-based one it
      holds for points that are pairwise further apart than the tolerance. *)
  Definition veq_on (G : vec S n -> Prop) : Prop :=
    forall p q, G p -> G q -> (veq L p q = true <-> p = q).
End Spec.

Arguments OpInsert {S n P} _ _.
Arguments OpSearch {S n P} _.
Arguments OpSize {S n P}.
Arguments OpEmpty {S n P}.
Arguments OpNearest {S n P} _.
Arguments RBool {S n P} _.
Arguments RNat {S n P} _.
Arguments RFound {S n P} _ _.
Arguments RThrow {S n P}.
Arguments RBroken {S n P}.
Arguments op S n P : clear implicits.
Arguments out S n P : clear implicits.
Arguments step {S} L {n P} SZ t o.
Arguments run {S} L {n P} SZ hist.
Arguments inserted {S n P} hist.
Arguments points {S n P} hist.
Arguments accepted {S} L {n P} SZ hist.
Arguments cdist {S n} a b.
Arguments op_points {S n P} o.
Arguments first_payload {S n P} l p v.
Arguments kd_spec {S n P} SZ hist o r.
Arguments veq_on {S} L {n} G.
