(** * Specification of transformations: affine maps of R^3 and point sets *)

From Coq Require Import Reals.
From Verif Require Import Linal SpecReal.
Local Open Scope R_scope.

(** the affine map with linear part [A] (rows) and translation [t] *)
Definition affine {n} (A : vec (vec R n) n) (t : vec R n) (p : vec R n) : vec R n :=
  radd (vmap (fun row => rdot row p) A) t.

(** the homogeneous matrix with linear part [A], translation [t] and last row [l] *)
Definition hmat_of (A : vec (vec R 3) 3) (t : vec R 3) (l : vec R 4) : vec (vec R 4) 4 :=
  let '((a, (b, (c, _))), ((d, (e, (f, _))), ((g, (h, (i, _))), _))) := A in
  let '(x, (y, (z, _))) := t in
  ((a, (b, (c, (x, tt)))), ((d, (e, (f, (y, tt)))), ((g, (h, (i, (z, tt)))), (l, tt)))).

(** distance preserving maps *)
Definition rigid {n} (f : vec R n -> vec R n) : Prop := forall p q, rdist (f p) (f q) = rdist p q.

(** [Y] is the image of the set [X] under [f] *)
Definition is_image {n} (f : vec R n -> vec R n) (X Y : vec R n -> Prop) : Prop :=
  forall q, Y q <-> exists p, X p /\ q = f p.

(** the solid cylinder and cone with axis from [a] to [b] and (base) radius [r] *)
Definition in_cylinder {n} (a b : vec R n) (r : R) (p : vec R n) : Prop :=
  exists t, 0 <= t <= 1 /\ rdot (rsub p (along a (rsub b a) t)) (rsub b a) = 0 /\
    rdist p (along a (rsub b a) t) <= r.
Definition in_cone {n} (a b : vec R n) (r : R) (p : vec R n) : Prop :=
  exists t, 0 <= t <= 1 /\ rdot (rsub p (along a (rsub b a) t)) (rsub b a) = 0 /\
    rdist p (along a (rsub b a) t) <= (1 - t) * r.
(** the circle in space with centre [o], radius [r] and normal [m] *)
Definition on_circle {n} (o : vec R n) (r : R) (m : vec R n) (p : vec R n) : Prop :=
  rdist p o = r /\ rdot m (rsub p o) = 0.
