(** * Specification of welding: nearly equal corners become one vertex *)

From Coq Require Import List Bool Reals ZArith.
From Flocq Require Import IEEE754.BinarySingleNaN.
From Verif Require Import Scalar Linal SpecIEEE SpecFloatErr ModelMesh SpecMesh.
Import ListNotations.

Section Weld.
  Context {S : Scalar} (L : Linal S).

  (** on the points of [l], [operator==] tells which of them belong together *)
  Definition groups (l : list (point S)) : Prop :=
    (forall x, In x l -> veq L x x = true) /\
    (forall x y, In x l -> In y l -> veq L x y = true -> veq L y x = true) /\
    (forall x y z, In x l -> In y l -> In z l -> veq L x y = true -> veq L y z = true -> veq L x z = true).

  (** the first point of [l] that [operator==] identifies with [q] *)
  Definition first_equal (l : list (point S)) (q : point S) : point S :=
    match find (fun x : point S => veq L x q) l with Some x => x | None => q end.

  (** the triangles with every corner replaced by the first one equal to it *)
  Definition welded (ts : list (triangle S)) : list (triangle S) :=
    let w := first_equal (points_of ts) in
    map (fun t => let '(p0, p1, p2) := t in (w p0, w p1, w p2)) ts.
End Weld.

(** [operator==] on vectors identifies all vectors whose coordinates are at most [s] apart *)
Definition equal_if_within {p e Hp He f g h pi} (L : Linal (IEEE p e Hp He f g h pi)) (s : R) : Prop :=
  forall n (x y : vec (binary_float p e) n), finite_pt x -> finite_pt y ->
    (forall i, (i < n)%nat -> (Rabs (fval i x - fval i y) <= s)%R) -> veq L x y = true.
