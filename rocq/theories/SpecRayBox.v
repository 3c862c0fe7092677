(** * Specification of the ray / box intersection

    The model runs on extended reals ([XS]), because the code uses infinities
    for axis-parallel rays; the inputs are finite. *)

From Coq Require Import Reals List.
From Verif Require Import Scalar Linal SpecReal SpecBox.
Local Open Scope R_scope.

(** a vector of finite extended reals *)
Definition finv {n} (v : vec R n) : vec xR n := vmap Fin v.

(** each coordinate within [e] of the range of the box *)
Definition near_box {n} (e : R) (lo hi x : vec R n) : Prop :=
  forall i, (i < n)%nat -> comp i lo - e <= comp i x <= comp i hi + e.

(** no component of the direction is a nonzero number within the tolerance *)
Definition clean_dir {n} (e : R) (d : vec R n) : Prop :=
  forall i, (i < n)%nat -> comp i d = 0 \/ e < Rabs (comp i d).

(** what is assumed of the comparisons on finite extended reals: the sandwich
    contract of [LinalR]; [e] is the default tolerance *)
Record LinalX {M : R} (L : Linal (XS M)) (e : R) : Prop := {
  lx_eps : leps L = Fin e;
  lx_eps_pos : 0 <= e;
  lx_zero_1 : forall x, isZero L (leps L) (Fin x) = true -> Rabs x <= e;
  lx_zero_0 : isZero L (leps L) (Fin 0) = true;
  lx_less_1 : forall a b, isLess L (leps L) (Fin a) (Fin b) = true -> a < b;
  lx_less_0 : forall a b, a < b - e -> isLess L (leps L) (Fin a) (Fin b) = true;
  lx_greater_1 : forall a b, isGreater L (leps L) (Fin a) (Fin b) = true -> b < a;
  lx_greater_0 : forall a b, b + e < a -> isGreater L (leps L) (Fin a) (Fin b) = true;
  lx_lesseq_1 : forall a b, isLessEq L (leps L) (Fin a) (Fin b) = true -> a <= b + e;
  lx_lesseq_0 : forall a b, a <= b -> isLessEq L (leps L) (Fin a) (Fin b) = true;
  lx_greatereq_1 : forall a b, isGreaterEq L (leps L) (Fin a) (Fin b) = true -> b - e <= a;
  lx_greatereq_0 : forall a b, b <= a -> isGreaterEq L (leps L) (Fin a) (Fin b) = true
}.
