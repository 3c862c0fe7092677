(** * The sweep over line segments (Intersect/BentleyOttmann.hpp) *)

From Coq Require Import List Arith Bool.
From Verif Require Import Scalar Linal Result ModelShapes ModelIntersect ModelMesh.
Import ListNotations.

(** std::set<std::size_t, Compare> seen as the list of its elements in iteration
    order; iterators are positions.  [os_insert comp l x] is the position of the
    returned iterator and the new contents, [os_find comp l x] the position found
    or [None] for end().  What is assumed about the two functions is stated with
    the theorems (SpecSweep.v). *)
Record ordered_set := mkSet {
  os_insert : (nat -> nat -> bool) -> list nat -> nat -> nat * list nat;
  os_find : (nat -> nat -> bool) -> list nat -> nat -> option nat }.

(** erase(it) *)
Definition erase_at {A} (p : nat) (l : list A) : list A := firstn p l ++ skipn (S p) l.

Section Sweep.
  Context {S : Scalar} (L : Linal S) (dbg : bool) (os : ordered_set).
  Local Open Scope scalar_scope.

  (** compute_y (BentleyOttmann.hpp:39-47) *)
  Definition compute_y (s : segment S 2) (x : S) : S :=
    let a := g_source s in
    let b := g_target s in
    if fst a =? fst b then fst (snd a)
    else fst (snd a) + (fst (snd b) - fst (snd a)) * (x - fst a) / (fst b - fst a).

  (** Event (lines 31-37) *)
  Record event := mkEvent { ev_point : vec S 2; ev_id : nat; ev_start : bool }.

  (** compStatus (lines 59-71) for two segments *)
  Definition below (s1 s2 : segment S 2) : bool :=
    let x := std_max (std_min (fst (g_source s1)) (fst (g_target s1))) (std_min (fst (g_source s2)) (fst (g_target s2))) in
    compute_y s1 x <? compute_y s2 x.

  (** the segments (the field [id] of BOSegment is never read) *)
  Context (segs : list (segment S 2)).

  (** compStatus (lines 59-71); the elements of the set are indices of segments,
      the access by index is unchecked, the value for other numbers is never used *)
  Definition comp (i j : nat) : bool :=
    match nth_error segs i, nth_error segs j with
    | Some s1, Some s2 => below s1 s2
    | _, _ => false
    end.

  (** the events pushed (lines 74-78) *)
  Definition events : list event :=
    flat_map (fun '(i, s) => [mkEvent (g_source s) i true; mkEvent (g_target s) i false]) (combine (seq 0 (length segs)) segs).

  (** one of the calls to intersect and push_back (lines 97-100, 105-108, 123-126) *)
  Definition check (out : list (vec S 2)) (i j : nat) : res (list (vec S 2)) :=
    let* s1 := at_ segs i in
    let* s2 := at_ segs j in
    let* o := intersect_segment2 L dbg (leps L) s1 s2 in
    Ok (match o with Some q => out ++ [q] | None => out end).

  (** the body of the loop (lines 82-131) *)
  Definition sweep_step (st : list nat * list (vec S 2)) (e : event) : res (list nat * list (vec S 2)) :=
    let (status, out) := st in
    if ev_start e then
      let (p, status') := os_insert os comp status (ev_id e) in
      match nth_error status' p with
      | None => Ok (status', out)
      | Some it =>
          let* out1 := match nth_error status' (p + 1)%nat with Some above => check out it above | None => Ok out end in
          let* out2 := match (if (p =? 0)%nat then None else nth_error status' (p - 1)%nat) with
                       | Some below => check out1 it below | None => Ok out1 end in
          Ok (status', out2)
      end
    else
      match os_find os comp status (ev_id e) with
      | None => Ok (status, out)
      | Some p =>
          let* out1 := match nth_error status (p + 1)%nat, (if (p =? 0)%nat then None else nth_error status (p - 1)%nat) with
                       | Some above, Some below => check out above below
                       | _, _ => Ok out end in
          Ok (erase_at p status, out1)
      end.

  (** bentley_ottmann (lines 49-136) when the queue delivers the events in the
      order [evs] *)
  Definition sweep (evs : list event) : res (list (vec S 2)) :=
    let* (_, out) := foldM sweep_step evs ([], []) in Ok out.
End Sweep.

Arguments event S : clear implicits.
Arguments mkEvent {S} _ _ _.

(** ** A list based set *)

(** position of the first element that is not before [x] *)
Fixpoint lower_bound (comp : nat -> nat -> bool) (l : list nat) (x : nat) : nat :=
  match l with
  | [] => 0
  | y :: r => if comp y x then S (lower_bound comp r x) else 0
  end.
Definition list_set : ordered_set := {|
  os_insert comp l x :=
    let p := lower_bound comp l x in
    match nth_error l p with
    | Some y => if comp x y then (p, firstn p l ++ x :: skipn p l) else (p, l)
    | None => (p, l ++ [x])
    end;
  os_find comp l x :=
    let p := lower_bound comp l x in
    match nth_error l p with
    | Some y => if comp x y then None else Some p
    | None => None
    end |}.
