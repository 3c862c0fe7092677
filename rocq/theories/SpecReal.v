(** * Euclidean space R^n: vocabulary of the specifications

    Written without reference to the model; used to state what geometric
    results should mean. *)

From Coq Require Import Reals Lra List.
From Verif Require Import Linal.
Local Open Scope R_scope.

Fixpoint rdot {n} : vec R n -> vec R n -> R :=
  match n with
  | O => fun _ _ => 0
  | S m => fun u v => fst u * fst v + rdot (snd u) (snd v)
  end.

Definition radd {n} (u v : vec R n) : vec R n := vmap2 Rplus u v.
Definition rsub {n} (u v : vec R n) : vec R n := vmap2 Rminus u v.
Definition rscale {n} (t : R) (v : vec R n) : vec R n := vmap (Rmult t) v.
Definition rzero {n} : vec R n := vconst n 0.

Definition rnorm {n} (v : vec R n) : R := sqrt (rdot v v).
Definition rdist {n} (u v : vec R n) : R := rnorm (rsub u v).

(** the point with parameter [t] on the line through [o] with direction [d] *)
Definition along {n} (o d : vec R n) (t : R) : vec R n := radd o (rscale t d).

(** [m] is the minimum of the distances between points of [A] and of [B] *)
Definition is_set_distance {n} (A B : vec R n -> Prop) (m : R) : Prop :=
  (forall a b, A a -> B b -> m <= rdist a b) /\
  (exists a b, A a /\ B b /\ rdist a b = m).

Definition on_line {n} (o d : vec R n) (p : vec R n) : Prop := exists t, p = along o d t.
Definition on_ray {n} (o d : vec R n) (p : vec R n) : Prop := exists t, 0 <= t /\ p = along o d t.
Definition on_segment {n} (a b : vec R n) (p : vec R n) : Prop :=
  exists t, 0 <= t <= 1 /\ p = along a (rsub b a) t.
Definition on_plane {n} (o nrm : vec R n) (p : vec R n) : Prop := rdot nrm (rsub p o) = 0.
Definition on_sphere {n} (c : vec R n) (r : R) (p : vec R n) : Prop := rdist p c = r.

(** Gram determinant: |u|^2 |v|^2 sin^2 of the angle; 0 iff u, v are linearly dependent *)
Definition gram {n} (u v : vec R n) : R := rdot u u * rdot v v - rdot u v * rdot u v.

(** two-dimensional cross product: zero exactly for parallel directions *)
Definition det2 (u v : vec R 2) : R := fst u * fst (snd v) - fst v * fst (snd u).

(** cross product of R^3 *)
Definition rcross (u v : vec R 3) : vec R 3 :=
  let '(a, (b, (c, _))) := u in
  let '(x, (y, (z, _))) := v in
  mk3 (b * z - c * y) (c * x - a * z) (a * y - b * x).

(** [n] is the unit normal of the triangle p0 p1 p2, oriented by the right hand rule *)
Definition unit_normal (n p0 p1 p2 : vec R 3) : Prop :=
  rnorm n = 1 /\ rdot n (rsub p1 p0) = 0 /\ rdot n (rsub p2 p0) = 0 /\
  0 < rdot n (rcross (rsub p1 p0) (rsub p2 p0)).

(** sum of a list of vectors *)
Definition rsum {n} (l : list (vec R n)) : vec R n := fold_right radd rzero l.

(** [p] is one of the (at most two) points of a result *)
Definition hits {n} (o : option (vec R n) * option (vec R n)) (p : vec R n) : Prop :=
  fst o = Some p \/ snd o = Some p.
