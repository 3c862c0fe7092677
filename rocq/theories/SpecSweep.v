(** * Specification vocabulary for the sweep *)

From Coq Require Import Reals List Arith Permutation Sorted.
From Verif Require Import Scalar Linal Result SpecReal ModelShapes ModelSweep.
Import ListNotations.

(** ** What is known about std::set *)

(** it only ever contains what was inserted: [insert] either adds its argument
    somewhere or leaves the contents alone, and iterators are valid.  Assumed
    for every comparison function. *)
Record set_like (os : ordered_set) : Prop := mkSetLike {
  sl_insert : forall comp l x p l', os_insert os comp l x = (p, l') ->
    (l' = l /\ p < length l) \/ (exists l1 l2, l = l1 ++ l2 /\ l' = l1 ++ x :: l2 /\ p = length l1);
  sl_find : forall comp l x p, os_find os comp l x = Some p -> p < length l }.

(** strict weak ordering of the elements of a list *)
Record strict_weak {A} (comp : A -> A -> bool) (l : list A) : Prop := mkSW {
  sw_irrefl : forall x, In x l -> comp x x = false;
  sw_trans : forall x y z, In x l -> In y l -> In z l -> comp x y = true -> comp y z = true -> comp x z = true;
  sw_incomp : forall x y z, In x l -> In y l -> In z l ->
    comp x y = false -> comp y x = false -> comp y z = false -> comp z y = false -> comp x z = false /\ comp z x = false }.

(** the C++ standard: as long as the comparison is a strict weak ordering of the
    contents and the argument, the contents stay sorted and equivalent elements
    are found *)
Record std_set (os : ordered_set) : Prop := mkStdSet {
  ss_like : set_like os;
  ss_insert : forall comp l x p l', strict_weak comp (x :: l) -> StronglySorted (fun i j => comp i j = true) l ->
    os_insert os comp l x = (p, l') ->
    (l' = l /\ exists y, nth_error l p = Some y /\ comp x y = false /\ comp y x = false) \/
    (exists l1 l2, l = l1 ++ l2 /\ l' = l1 ++ x :: l2 /\ p = length l1 /\ StronglySorted (fun i j => comp i j = true) l');
  ss_find : forall comp l x, strict_weak comp (x :: l) -> StronglySorted (fun i j => comp i j = true) l ->
    match os_find os comp l x with
    | Some p => exists y, nth_error l p = Some y /\ comp x y = false /\ comp y x = false
    | None => forall y, In y l -> comp x y = true \/ comp y x = true
    end }.

(** ** What is known about the priority queue: the events come out once each,
    and none before one with a smaller x coordinate; the order of events with
    equal x coordinates is unspecified *)
Definition pop_order {S : Scalar} (segs : list (segment S 2)) (evs : list (event S)) : Prop :=
  Permutation (events segs) evs /\
  ForallOrdPairs (fun e e' => (fst (ev_point e') <? fst (ev_point e))%S = false) evs.

(** ** Segments in the plane *)
Local Open Scope R_scope.

(** the line of the segment at [x] *)
Definition height {M} (s : segment (RS M) 2) (x : R) : R :=
  let a := g_source s : vec R 2 in let b := g_target s : vec R 2 in
  fst (snd a) + (fst (snd b) - fst (snd a)) * ((x - fst a) / (fst b - fst a)).
Definition left_to_right {M} (s : segment (RS M) 2) : Prop := (fst (g_source s) : R) < fst (g_target s).
(** the segment has a point with this x coordinate *)
Definition spans {M} (s : segment (RS M) 2) (x : R) : Prop := (fst (g_source s) : R) <= x <= fst (g_target s).
(** two segments have a common point *)
Definition meet {M} (s s' : segment (RS M) 2) : Prop :=
  exists q : vec R 2, on_segment (g_source s) (g_target s) q /\ on_segment (g_source s') (g_target s') q.
(** the cross product of the directions *)
Definition crossing {M} (s s' : segment (RS M) 2) : R :=
  det2 (rsub (g_target s) (g_source s)) (rsub (g_target s') (g_source s')).

(** general position: no segment is vertical, all are given from left to right,
    none starts on another one, and two segments that meet do so at a
    sufficiently large angle *)
Record general_position {M} (e : R) (segs : list (segment (RS M) 2)) : Prop := mkGP {
  gp_right : forall s, In s segs -> left_to_right s;
  gp_start : forall i j s s', i <> j -> nth_error segs i = Some s -> nth_error segs j = Some s' ->
    ~ on_segment (g_source s) (g_target s) (g_source s' : vec R 2);
  gp_angle : forall i j s s', i <> j -> nth_error segs i = Some s -> nth_error segs j = Some s' ->
    meet s s' -> e < Rabs (crossing s s') }.

(** every pair of segments that meet contributes exactly one point, which lies on
    both; nothing else is reported *)
Definition reports_once {M} (segs : list (segment (RS M) 2)) (out : list (vec R 2)) : Prop :=
  exists ps : list (nat * nat), NoDup ps /\
    (forall i j, In (i, j) ps -> i <> j /\ ~ In (j, i) ps) /\
    Forall2 (fun '(i, j) q => exists s s', nth_error segs i = Some s /\ nth_error segs j = Some s' /\
      on_segment (g_source s) (g_target s) q /\ on_segment (g_source s') (g_target s') q) ps out /\
    (forall i j s s', i <> j -> nth_error segs i = Some s -> nth_error segs j = Some s' -> meet s s' ->
      In (i, j) ps \/ In (j, i) ps).
