(** * Specification of intervals and boxes *)

From Coq Require Import Reals List.
From Verif Require Import Linal.
Local Open Scope R_scope.

(** [i]-th component *)
Definition comp {n} (i : nat) (v : vec R n) : R := vnth 0 i v.

Definition in_interval (a b x : R) : Prop := a <= x <= b.

(** closed box *)
Definition in_box {n} (lo hi x : vec R n) : Prop :=
  forall i, (i < n)%nat -> comp i lo <= comp i x <= comp i hi.
(** open box *)
Definition inside_box {n} (lo hi x : vec R n) : Prop :=
  forall i, (i < n)%nat -> comp i lo < comp i x < comp i hi.

(** [m] is the least (greatest) element of the list *)
Definition is_min (l : list R) (m : R) : Prop := In m l /\ forall x, In x l -> m <= x.
Definition is_max (l : list R) (m : R) : Prop := In m l /\ forall x, In x l -> x <= m.
