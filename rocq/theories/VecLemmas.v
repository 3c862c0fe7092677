(** * Componentwise reasoning and the comparison contract *)

From Coq Require Import Reals Lra Psatz List Bool Arith Lia.
From Verif Require Import Scalar Linal SpecReal VecR.

Section Comp.
  Context {A B C : Type} (da : A) (db : B) (dc : C).

  Lemma vnth_vmap (f : A -> B) n i (u : vec A n) : i < n -> vnth db i (vmap f u) = f (vnth da i u).
  Proof. revert i; induction n as [|n IH]; intros i Hi; [lia|]. destruct i; cbn; [reflexivity|]. apply IH; lia. Qed.
  Lemma vnth_vmap2 (f : A -> B -> C) n i (u : vec A n) (v : vec B n) :
    i < n -> vnth dc i (vmap2 f u v) = f (vnth da i u) (vnth db i v).
  Proof. revert i; induction n as [|n IH]; intros i Hi; [lia|]. destruct i; cbn; [reflexivity|]. apply IH; lia. Qed.
  Lemma vnth_vconst n i (a : A) : i < n -> vnth da i (vconst n a) = a.
  Proof. revert i; induction n as [|n IH]; intros i Hi; [lia|]. destruct i; cbn; [reflexivity|]. apply IH; lia. Qed.

  Lemma vex2_true (p : A -> B -> bool) n (u : vec A n) (v : vec B n) :
    vex2 p u v = true <-> exists i, i < n /\ p (vnth da i u) (vnth db i v) = true.
  Proof.
    induction n as [|n IH]; cbn.
    - split; [discriminate|]. intros (i & H & _); lia.
    - rewrite orb_true_iff, IH. split.
      + intros [H|(i & H & E)]; [exists 0|exists (S i)]; split; auto; lia.
      + intros (i & H & E). destruct i; [now left|right]. exists i. split; [lia|exact E].
  Qed.
  Lemma vex2_false (p : A -> B -> bool) n (u : vec A n) (v : vec B n) :
    vex2 p u v = false <-> forall i, i < n -> p (vnth da i u) (vnth db i v) = false.
  Proof.
    induction n as [|n IH]; cbn.
    - split; [intros; lia|reflexivity].
    - rewrite orb_false_iff, IH. split.
      + intros [H1 H2] i Hi. destruct i; [exact H1|]. apply H2; lia.
      + intros H; split; [apply (H 0); lia|]. intros i Hi. apply (H (S i)); lia.
  Qed.
  Lemma vall2_true (p : A -> B -> bool) n (u : vec A n) (v : vec B n) :
    vall2 p u v = true <-> forall i, i < n -> p (vnth da i u) (vnth db i v) = true.
  Proof.
    induction n as [|n IH]; cbn.
    - split; [intros; lia|reflexivity].
    - rewrite andb_true_iff, IH. split.
      + intros [H1 H2] i Hi. destruct i; [exact H1|]. apply H2; lia.
      + intros H; split; [apply (H 0); lia|]. intros i Hi. apply (H (S i)); lia.
  Qed.
  Lemma vec_ext_nth n (u v : vec A n) : (forall i, i < n -> vnth da i u = vnth da i v) -> u = v.
  Proof.
    induction n as [|n IH]; destruct u, v; intros H; [reflexivity|]. f_equal.
    - apply (H 0); lia.
    - apply IH. intros i Hi. apply (H (S i)); lia.
  Qed.
End Comp.

Lemma vec_of_fun {A} (d : A) n (f : nat -> A) : exists v : vec A n, forall i, i < n -> vnth d i v = f i.
Proof.
  revert f; induction n as [|n IH]; intros f.
  - exists tt; intros; lia.
  - destruct (IH (fun i => f (S i))) as [v Hv]. exists (f 0, v). intros i Hi.
    destruct i; cbn; [reflexivity|]. apply Hv; lia.
Qed.

Local Open Scope R_scope.

Lemma abs_le_inv x e : Rabs x <= e -> - e <= x <= e.
Proof. unfold Rabs; destruct (Rcase_abs x); lra. Qed.

Section Cmp.
  Context {M : R} {L : Linal (RS M)} (HL : LinalR L).

  Lemma less_t e a b : 0 <= e -> isLess L e a b = true -> a < b.
  Proof. apply (lr_less_1 L HL). Qed.
  Lemma less_f e a b : 0 <= e -> isLess L e a b = false -> b - e <= a.
  Proof. intros He H. destruct (Rlt_dec a (b - e)) as [h|h]; [|lra]. apply (lr_less_0 L HL) in h; congruence. Qed.
  Lemma greater_t e a b : 0 <= e -> isGreater L e a b = true -> b < a.
  Proof. apply (lr_greater_1 L HL). Qed.
  Lemma greater_f e a b : 0 <= e -> isGreater L e a b = false -> a <= b + e.
  Proof. intros He H. destruct (Rlt_dec (b + e) a) as [h|h]; [|lra]. apply (lr_greater_0 L HL) in h; congruence. Qed.
  Lemma lesseq_t e a b : 0 <= e -> isLessEq L e a b = true -> a <= b + e.
  Proof. apply (lr_lesseq_1 L HL). Qed.
  Lemma lesseq_f e a b : 0 <= e -> isLessEq L e a b = false -> b < a.
  Proof. intros He H. destruct (Rle_dec a b) as [h|h]; [|lra]. apply (lr_lesseq_0 L HL e) in h; congruence. Qed.
  Lemma greatereq_t e a b : 0 <= e -> isGreaterEq L e a b = true -> b - e <= a.
  Proof. apply (lr_greatereq_1 L HL). Qed.
  Lemma greatereq_f e a b : 0 <= e -> isGreaterEq L e a b = false -> a < b.
  Proof. intros He H. destruct (Rle_dec b a) as [h|h]; [|lra]. apply (lr_greatereq_0 L HL e) in h; congruence. Qed.
  Lemma zero_t e x : 0 <= e -> isZero L e x = true -> - e <= x <= e.
  Proof. intros He H. apply (lr_zero_1 L HL) in H; [|assumption]. apply abs_le_inv in H. exact H. Qed.
  Lemma zero_f e x : 0 <= e -> isZero L e x = false -> x <> 0.
  Proof. intros He H ->. rewrite (lr_zero_0 L HL) in H; [discriminate|assumption]. Qed.
  Lemma eq_t e a b : 0 <= e -> isEq L e a b = true -> - e <= a - b <= e.
  Proof. intros He H. apply (lr_eq_1 L HL) in H; [|assumption]. apply abs_le_inv in H. exact H. Qed.
  Lemma eq_f e a b : 0 <= e -> isEq L e a b = false -> a <> b.
  Proof. intros He H ->. rewrite (lr_eq_0 L HL) in H; [discriminate|assumption]. Qed.
End Cmp.

(** turn boolean comparisons in the hypotheses into inequalities *)
Ltac cmp_hyps HL He :=
  repeat match goal with
  | H : isLess _ _ _ _ = true |- _ => apply (less_t HL) in H; [|exact He]
  | H : isLess _ _ _ _ = false |- _ => apply (less_f HL) in H; [|exact He]
  | H : isGreater _ _ _ _ = true |- _ => apply (greater_t HL) in H; [|exact He]
  | H : isGreater _ _ _ _ = false |- _ => apply (greater_f HL) in H; [|exact He]
  | H : isLessEq _ _ _ _ = true |- _ => apply (lesseq_t HL) in H; [|exact He]
  | H : isLessEq _ _ _ _ = false |- _ => apply (lesseq_f HL) in H; [|exact He]
  | H : isGreaterEq _ _ _ _ = true |- _ => apply (greatereq_t HL) in H; [|exact He]
  | H : isGreaterEq _ _ _ _ = false |- _ => apply (greatereq_f HL) in H; [|exact He]
  | H : isZero _ _ _ = true |- _ => apply (zero_t HL) in H; [|exact He]
  | H : isZero _ _ _ = false |- _ => apply (zero_f HL) in H; [|exact He]
  | H : isEq _ _ _ _ = true |- _ => apply (eq_t HL) in H; [|exact He]
  | H : isEq _ _ _ _ = false |- _ => apply (eq_f HL) in H; [|exact He]
  end.

(** case split on every comparison in the goal *)
Ltac cmp_split :=
  repeat match goal with
  | |- context [isLess ?L ?e ?a ?b] => destruct (isLess L e a b) eqn:?
  | |- context [isGreater ?L ?e ?a ?b] => destruct (isGreater L e a b) eqn:?
  | |- context [isLessEq ?L ?e ?a ?b] => destruct (isLessEq L e a b) eqn:?
  | |- context [isGreaterEq ?L ?e ?a ?b] => destruct (isGreaterEq L e a b) eqn:?
  | |- context [isZero ?L ?e ?a] => destruct (isZero L e a) eqn:?
  | |- context [isEq ?L ?e ?a ?b] => destruct (isEq L e a b) eqn:?
  end.

(** evaluate concrete comparisons of real numbers *)
Ltac rdec :=
  repeat (cbn; match goal with
  | |- context [Rltb ?x ?y] =>
    first [rewrite (proj2 (Rltb_true x y)) by lra | rewrite (proj2 (Rltb_false x y)) by lra]
  | |- context [Rleb ?x ?y] =>
    first [rewrite (proj2 (Rleb_true x y)) by lra | rewrite (proj2 (Rleb_false x y)) by lra]
  | |- context [Reqb ?x ?y] =>
    first [rewrite (proj2 (Reqb_true x y)) by lra | rewrite (proj2 (Reqb_false x y)) by lra]
  end); cbn.
