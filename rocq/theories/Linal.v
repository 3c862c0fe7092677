(** * The vector library "linal"

    linal is an external dependency that is not part of /repo.  This file is
    the contract the model assumes of it:

    - vectors are fixed-size tuples, and the arithmetic operators are the
      componentwise / mathematical ones given below;
    - the tolerance comparisons and [operator==] on vectors are an arbitrary
      record of boolean functions ([Linal]); what a theorem needs from them is
      stated as an explicit contract ([LinalR] below for real numbers). *)

From Coq Require Import ZArith Reals Lra Bool List Arith.
From Verif Require Import Scalar.
Import ListNotations.

(** [linal::vec<T,D>]: nested pairs, so that there is no length side condition. *)
Fixpoint vec (A : Type) (n : nat) : Type :=
  match n with
  | O => unit
  | S m => (A * vec A m)%type
  end.

Definition vec2 (A : Type) := vec A 2.
Definition vec3 (A : Type) := vec A 3.

Definition mk2 {A} (x y : A) : vec A 2 := (x, (y, tt)).
Definition mk3 {A} (x y z : A) : vec A 3 := (x, (y, (z, tt))).

(** [v[i]]; reading past the end is undefined behaviour in C++, the model then
    yields the default [d] (no modelled function does so). *)
Fixpoint vnth {A} (d : A) {n} (i : nat) : vec A n -> A :=
  match n with
  | O => fun _ => d
  | S m => fun v => match i with O => fst v | S j => vnth d j (snd v) end
  end.

Fixpoint vconst {A} (n : nat) (a : A) : vec A n :=
  match n with
  | O => tt
  | S m => (a, vconst m a)
  end.

Fixpoint vmap {A B} (f : A -> B) {n} : vec A n -> vec B n :=
  match n with
  | O => fun _ => tt
  | S m => fun v => (f (fst v), vmap f (snd v))
  end.

Fixpoint vmap2 {A B C} (f : A -> B -> C) {n} : vec A n -> vec B n -> vec C n :=
  match n with
  | O => fun _ _ => tt
  | S m => fun u v => (f (fst u) (fst v), vmap2 f (snd u) (snd v))
  end.

(** Loops "for all i, p(u[i], v[i])" / "exists i" with early return. *)
Fixpoint vall2 {A B} (p : A -> B -> bool) {n} : vec A n -> vec B n -> bool :=
  match n with
  | O => fun _ _ => true
  | S m => fun u v => p (fst u) (fst v) && vall2 p (snd u) (snd v)
  end.

Fixpoint vex2 {A B} (p : A -> B -> bool) {n} : vec A n -> vec B n -> bool :=
  match n with
  | O => fun _ _ => false
  | S m => fun u v => p (fst u) (fst v) || vex2 p (snd u) (snd v)
  end.

Section Ops.
  Context {S : Scalar}.
  Local Open Scope scalar_scope.

  Definition vadd {n} (u v : vec S n) : vec S n := vmap2 (fun a b => a + b) u v.
  Definition vsub {n} (u v : vec S n) : vec S n := vmap2 (fun a b => a - b) u v.
  Definition vscale {n} (t : S) (v : vec S n) : vec S n := vmap (fun a => t * a) v.
  Definition vdivs {n} (v : vec S n) (t : S) : vec S n := vmap (fun a => a / t) v.
  Definition vneg {n} (v : vec S n) : vec S n := vmap (fun a => - a) v.

  (** [linal::dot] (order of summation of the library unknown; irrelevant for
      the exact instances). *)
  Fixpoint dot {n} : vec S n -> vec S n -> S :=
    match n with
    | O => fun _ _ => s0
    | Datatypes.S m => fun u v => fst u * fst v + dot (snd u) (snd v)
    end.

  Definition length2 {n} (v : vec S n) : S := dot v v.
  Definition vlength {n} (v : vec S n) : S := ssqrt (dot v v).
  (** [linal::normalize]: division by the length. *)
  Definition normalize {n} (v : vec S n) : vec S n := vdivs v (vlength v).
  Definition cross (u v : vec S 3) : vec S 3 :=
    let '(a, (b, (c, _))) := u in
    let '(x, (y, (z, _))) := v in
    mk3 (b * z - c * y) (c * x - a * z) (a * y - b * x).
  (** [linal::projection(v, onto)] and [linal::rejection(v, from)]. *)
  Definition projection {n} (v onto : vec S n) : vec S n :=
    vscale (dot v onto / dot onto onto) onto.
  Definition rejection {n} (v from : vec S n) : vec S n := vsub v (projection v from).

  (** The tolerance comparisons; the first argument is the tolerance.  The C++
      overloads without a tolerance argument use [leps]. *)
  Record Linal := mkLinal {
    leps : S;                                 (* linal::eps<T>::value *)
    isZero : S -> S -> bool;
    isEq : S -> S -> S -> bool;
    isLess : S -> S -> S -> bool;
    isGreater : S -> S -> S -> bool;
    isLessEq : S -> S -> S -> bool;
    isGreaterEq : S -> S -> S -> bool;
    veq : forall n, vec S n -> vec S n -> bool   (* operator== on vectors *)
  }.

  (** [linal::is_equal(u, v)]: componentwise [isEq] with the default tolerance. *)
  Definition is_equal (L : Linal) {n} (u v : vec S n) : bool :=
    vall2 (isEq L (leps L)) u v.
End Ops.

Arguments Linal S : clear implicits.
Arguments veq {S} l {n} _ _.
Arguments leps {S} _.
Arguments isZero {S} _ _ _.
Arguments isEq {S} _ _ _ _.
Arguments isLess {S} _ _ _ _.
Arguments isGreater {S} _ _ _ _.
Arguments isLessEq {S} _ _ _ _.
Arguments isGreaterEq {S} _ _ _ _.

(** The natural implementation over any scalar type: [a < b] up to tolerance
    means [b - a > eps], and so on; exact [operator==]. *)
Definition vec_eqb {S : Scalar} {n} (u v : vec S n) : bool := vall2 (@seqb S) u v.

Definition tol_linal (S : Scalar) (e : S) : Linal S := {|
  leps := e;
  isZero := fun e x => (sabs x <=? e)%S;
  isEq := fun e a b => (sabs (a - b) <=? e)%S;
  isLess := fun e a b => (e <? b - a)%S;
  isGreater := fun e a b => (e <? a - b)%S;
  isLessEq := fun e a b => negb (e <? a - b)%S;
  isGreaterEq := fun e a b => negb (e <? b - a)%S;
  veq := fun n u v => vec_eqb u v |}.

(** A second implementation: raw comparisons that ignore the tolerance. *)
Definition raw_linal (S : Scalar) (e : S) : Linal S := {|
  leps := e;
  isZero := fun _ x => (x =? s0)%S;
  isEq := fun _ a b => (a =? b)%S;
  isLess := fun _ a b => (a <? b)%S;
  isGreater := fun _ a b => (b <? a)%S;
  isLessEq := fun _ a b => (a <=? b)%S;
  isGreaterEq := fun _ a b => (b <=? a)%S;
  veq := fun n u v => vec_eqb u v |}.

(** As [tol_linal], but [operator==] on vectors compares up to [e] as well. *)
Definition tolvec_linal (S : Scalar) (e : S) : Linal S :=
  let L := tol_linal S e in {|
  leps := e;
  isZero := isZero L; isEq := isEq L; isLess := isLess L; isGreater := isGreater L;
  isLessEq := isLessEq L; isGreaterEq := isGreaterEq L;
  veq := fun n u v => vall2 (isEq L e) u v |}.

(** ** The sandwich contract over the reals.

    Only the two one-sided implications are required of each comparison, so
    the behaviour inside the tolerance band, the strictness at its borders and
    even whether a tolerance is used at all are left open. *)
Local Open Scope R_scope.

Record LinalR {M} (L : Linal (RS M)) : Prop := mkLinalR {
  lr_eps : 0 <= leps L;
  lr_zero_1 : forall e x, 0 <= e -> isZero L e x = true -> Rabs x <= e;
  lr_zero_0 : forall e, 0 <= e -> isZero L e 0 = true;
  lr_eq_1 : forall e a b, 0 <= e -> isEq L e a b = true -> Rabs (a - b) <= e;
  lr_eq_0 : forall e a, 0 <= e -> isEq L e a a = true;
  lr_less_1 : forall e a b, 0 <= e -> isLess L e a b = true -> a < b;
  lr_less_0 : forall e a b, 0 <= e -> a < b - e -> isLess L e a b = true;
  lr_greater_1 : forall e a b, 0 <= e -> isGreater L e a b = true -> b < a;
  lr_greater_0 : forall e a b, 0 <= e -> b + e < a -> isGreater L e a b = true;
  lr_lesseq_1 : forall e a b, 0 <= e -> isLessEq L e a b = true -> a <= b + e;
  lr_lesseq_0 : forall e a b, 0 <= e -> a <= b -> isLessEq L e a b = true;
  lr_greatereq_1 : forall e a b, 0 <= e -> isGreaterEq L e a b = true -> b - e <= a;
  lr_greatereq_0 : forall e a b, 0 <= e -> b <= a -> isGreaterEq L e a b = true
}.

(** [operator==] is exact equality. *)
Definition veq_exact {S} (L : Linal S) : Prop :=
  forall n (u v : vec S n), veq L u v = true <-> u = v.

Lemma vall2_refl {A} (p : A -> A -> bool) n (v : vec A n) :
  (forall a, p a a = true) -> vall2 p v v = true.
Proof.
  intros H; induction n as [|n IH]; cbn; [reflexivity|].
  rewrite H, IH; reflexivity.
Qed.

Lemma vec_eqb_exact M n (u v : vec (RS M) n) : vec_eqb u v = true <-> u = v.
Proof.
  split.
  - revert u v; induction n as [|n IH]; intros u v H.
    + destruct u, v; reflexivity.
    + cbn in H; apply andb_true_iff in H as [H1 H2].
      apply Reqb_true in H1; apply IH in H2.
      destruct u, v; cbn in *; subst; reflexivity.
  - intros <-; apply vall2_refl; intros a; apply Reqb_true; reflexivity.
Qed.

Lemma tol_linal_R M e : 0 <= e -> LinalR (tol_linal (RS M) e).
Proof.
  intros He; split; cbn; auto; intros; try rewrite negb_true_iff in *;
    try match goal with
        | H : Rltb _ _ = true |- _ => apply Rltb_true in H
        | H : Rltb _ _ = false |- _ => apply Rltb_false in H
        | H : Rleb _ _ = true |- _ => apply Rleb_true in H
        end;
    try apply (proj2 (Rltb_true _ _)); try apply (proj2 (Rltb_false _ _));
    try apply (proj2 (Rleb_true _ _)); try lra.
  - rewrite Rabs_R0; lra.
  - unfold Rminus; rewrite Rplus_opp_r, Rabs_R0; lra.
Qed.

Lemma raw_linal_R M e : 0 <= e -> LinalR (raw_linal (RS M) e).
Proof.
  intros He; split; cbn; auto; intros;
    try match goal with
        | H : Rltb _ _ = true |- _ => apply Rltb_true in H
        | H : Rleb _ _ = true |- _ => apply Rleb_true in H
        | H : Reqb _ _ = true |- _ => apply Reqb_true in H
        end;
    try apply (proj2 (Rltb_true _ _)); try apply (proj2 (Rleb_true _ _));
    try apply (proj2 (Reqb_true _ _)); try lra; auto.
  - subst; rewrite Rabs_R0; lra.
  - subst; unfold Rminus; rewrite Rplus_opp_r, Rabs_R0; lra.
Qed.

Lemma tolvec_linal_R M e : 0 <= e -> LinalR (tolvec_linal (RS M) e).
Proof.
  intros He; destruct (tol_linal_R M e He); split; assumption.
Qed.

Lemma tol_linal_exact M e : veq_exact (tol_linal (RS M) e).
Proof. intros n u v; apply vec_eqb_exact. Qed.

Lemma raw_linal_exact M e : veq_exact (raw_linal (RS M) e).
Proof. intros n u v; apply vec_eqb_exact. Qed.

Lemma raw_linal_Z_exact e : veq_exact (raw_linal ZS e).
Proof.
  intros n u v; cbn. split.
  - revert u v; induction n as [|n IH]; intros u v H.
    + destruct u, v; reflexivity.
    + cbn in H; apply andb_true_iff in H as [H1 H2].
      apply Z.eqb_eq in H1; apply IH in H2.
      destruct u, v; cbn in *; subst; reflexivity.
  - intros <-; apply vall2_refl; intros a; apply Z.eqb_refl.
Qed.
