(** * Property theorems: what the status order of the sweep compares (C95) *)

From Coq Require Import List Bool Reals Lra Psatz.
From Verif Require Import Scalar Linal Result SpecReal VecR VecLemmas ModelShapes ModelSweep SpecSweep ProofSweepReal.
Import ListNotations.
Local Open Scope R_scope.

(** the same segment with the ends exchanged *)
Definition turned {M} (s : segment (RS M) 2) : segment (RS M) 2 := @mkSegment (RS M) 2 (g_target s) (g_source s).
Definition vertical {M} (s : segment (RS M) 2) : Prop := fst (g_source s : vec R 2) = fst (g_target s : vec R 2).
(** the larger of the two left ends *)
Definition later_left {M} (s s' : segment (RS M) 2) : R :=
  Rmax (Rmin (fst (g_source s : vec R 2)) (fst (g_target s : vec R 2))) (Rmin (fst (g_source s' : vec R 2)) (fst (g_target s' : vec R 2))).
(** [q] is on the line through the ends of [s] *)
Definition on_line_of {M} (s : segment (RS M) 2) (q : vec R 2) : Prop :=
  exists t, q = along (g_source s : vec R 2) (rsub (g_target s) (g_source s)) t.

Lemma std_min_R (M : R) (a b : RS M) : std_min a b = Rmin a b.
Proof. unfold std_min, Rmin. cbn. unfold Rltb. destruct (Rlt_dec b a), (Rle_dec a b); try lra; reflexivity || (apply Rle_antisym; lra). Qed.
Lemma below_lt (M : R) (s s' : segment (RS M) 2) : below s s' = true <-> (compute_y s (later_left s s') : R) < compute_y s' (later_left s s').
Proof.
  unfold below, later_left. cbv zeta. rewrite !std_min_R, std_max_R. cbn. unfold Rltb. destruct (Rlt_dec _ _); split; intros; try assumption; try reflexivity; try discriminate. contradiction.
Qed.
Lemma compute_y_line (M : R) (s : segment (RS M) 2) (q : vec R 2) : ~ vertical s -> on_line_of s q -> compute_y s (fst q) = fst (snd q).
Proof.
  destruct s as [(a & b & []) (c & d & [])], q as (x & y & []). unfold vertical, on_line_of, compute_y, along. cbn. intros H (t & E). injection E as -> ->.
  unfold Reqb. destruct (Req_EM_T a c) as [e|n]; [contradiction|]. field. lra.
Qed.
Lemma compute_y_vertical (M : R) (s : segment (RS M) 2) x : vertical s -> compute_y s x = fst (snd (g_source s : vec R 2)).
Proof. destruct s as [(a & b & []) (c & d & [])]. unfold vertical, compute_y. cbn. intros ->. unfold Reqb. destruct (Req_EM_T c c); [reflexivity|contradiction]. Qed.

(** ** C95: for segments that are not vertical the order is that of the points of their
    lines at the larger of the two left ends, whatever the directions of the segments. *)
Theorem C95_order :
  forall (M : R) (s s' : segment (RS M) 2) (q q' : vec R 2), ~ vertical s -> ~ vertical s' ->
    on_line_of s q -> on_line_of s' q' -> fst q = later_left s s' -> fst q' = later_left s s' ->
    (below s s' = true <-> fst (snd q) < fst (snd q')) /\ below (turned s) s' = below s s' /\ below s (turned s') = below s s'.
Proof.
  intros M s s' q q' V V' L L' E E'.
  assert (Main : forall (u u' : segment (RS M) 2), ~ vertical u -> ~ vertical u' -> on_line_of u q -> on_line_of u' q' -> fst q = later_left u u' -> fst q' = later_left u u' ->
    (below u u' = true <-> fst (snd q) < fst (snd q'))).
  { intros u u' W W' K K' F F'. rewrite below_lt. rewrite <- F at 1. rewrite <- F'. rewrite !compute_y_line by assumption. reflexivity. }
  assert (TV : forall u : segment (RS M) 2, ~ vertical u -> ~ vertical (turned u)) by (intros u W K; apply W; symmetry; exact K).
  assert (TL : forall (u : segment (RS M) 2) w, on_line_of u w -> on_line_of (turned u) w).
  { intros u w (t & ->). exists (1 - t). destruct u as [(a & b & []) (c & d & [])]. unfold along. cbn. repeat (apply f_equal2; [ring|]). reflexivity. }
  assert (T1 : later_left (turned s) s' = later_left s s') by (unfold later_left, turned; cbn; rewrite (Rmin_comm (fst (g_target s))); reflexivity).
  assert (T2 : later_left s (turned s') = later_left s s') by (unfold later_left, turned; cbn; rewrite (Rmin_comm (fst (g_target s'))); reflexivity).
  pose proof (Main s s' V V' L L' E E') as A. split; [exact A|].
  pose proof (Main (turned s) s' (TV s V) V' (TL s q L) L' ltac:(rewrite T1; exact E) ltac:(rewrite T1; exact E')) as B.
  pose proof (Main s (turned s') V (TV s' V') L (TL s' q' L') ltac:(rewrite T2; exact E) ltac:(rewrite T2; exact E')) as C.
  split; apply eq_true_iff_eq; tauto.
Qed.
Print Assumptions C95_order.

(** A vertical segment counts with the ordinate of its source, wherever the other one
    crosses it. *)
Theorem C95_vertical :
  forall (M : R) (s s' : segment (RS M) 2) (q : vec R 2), vertical s -> ~ vertical s' -> on_line_of s' q -> fst q = later_left s s' ->
    (below s s' = true <-> fst (snd (g_source s : vec R 2)) < fst (snd q)) /\ (below s' s = true <-> fst (snd q) < fst (snd (g_source s : vec R 2))).
Proof.
  intros M s s' q V V' L E. assert (E2 : fst q = later_left s' s) by (rewrite E; apply Rmax_comm).
  rewrite !below_lt. rewrite !(compute_y_vertical M s) by assumption. rewrite <- E, <- E2, (compute_y_line M s' q) by assumption. split; reflexivity.
Qed.
Print Assumptions C95_vertical.

(** two segments are never both below each other, and none is below itself *)
Theorem C95_asymmetric :
  forall (M : R) (s s' : segment (RS M) 2), (below s s' = true -> below s' s = false) /\ below s s = false.
Proof.
  intros M s s'. assert (A : forall u u' : segment (RS M) 2, below u u' = true -> below u' u = false).
  { intros u u' H. apply not_true_iff_false. intros K. apply below_lt in H, K. replace (later_left u' u) with (later_left u u') in K by apply Rmax_comm. lra. }
  split; [apply A|]. destruct (below s s) eqn:E; [|reflexivity]. pose proof (A s s E). congruence.
Qed.
Print Assumptions C95_asymmetric.

(** The full claim "the order does not depend on the directions of the segments" fails
    for vertical segments: a segment that crosses a vertical one is above it or below
    it, depending on the direction of the vertical one. *)
Theorem C95_direction_refuted :
  forall M : R, exists (s s' : segment (RS M) 2) (q : vec R 2), vertical s /\
    on_segment (g_source s) (g_target s) q /\ on_segment (g_source s') (g_target s') q /\
    below s s' = true /\ below s' s = false /\ below (turned s) s' = false /\ below s' (turned s) = true.
Proof.
  intros M. set (s := @mkSegment (RS M) 2 (1, (-1, tt)) (1, (1, tt))). set (s' := @mkSegment (RS M) 2 (0, (0, tt)) (2, (0, tt))). exists s, s', (1, (0, tt)).
  assert (V : vertical s) by reflexivity. assert (V' : ~ vertical s') by (unfold vertical; cbn; lra). assert (VT : vertical (turned s)) by reflexivity.
  assert (E : later_left s s' = 1) by (unfold later_left; cbn; rewrite (Rmin_left 1 1), (Rmin_left 0 2), Rmax_left by lra; reflexivity).
  assert (ET : later_left (turned s) s' = 1) by (unfold later_left; cbn; rewrite (Rmin_left 1 1), (Rmin_left 0 2), Rmax_left by lra; reflexivity).
  assert (L : on_line_of s' (1, (0, tt))) by (exists (1 / 2); unfold along; cbn; repeat (apply f_equal2; [field|]); reflexivity).
  destruct (C95_vertical M s s' (1, (0, tt)) V V' L (eq_sym E)) as (A1 & A2). destruct (C95_vertical M (turned s) s' (1, (0, tt)) VT V' L (eq_sym ET)) as (B1 & B2). cbn [fst snd g_source turned s] in A1, A2, B1, B2.
  split; [exact V|]. split; [exists (1 / 2); split; [lra|unfold along; cbn; repeat (apply f_equal2; [field|]); reflexivity]|].
  split; [exists (1 / 2); split; [lra|unfold along; cbn; repeat (apply f_equal2; [field|]); reflexivity]|].
  split; [apply A1; cbn; lra|]. split; [apply not_true_iff_false; intros K; apply A2 in K; cbn in K; lra|].
  split; [apply not_true_iff_false; intros K; apply B1 in K; cbn in K; lra|]. apply B2. cbn. lra.
Qed.
Print Assumptions C95_direction_refuted.

(** The hypotheses of C95_order are met: two segments that cross, one from right to left. *)
Example C95_example : let s := @mkSegment (RS 1) 2 (4, (4, tt)) (0, (0, tt)) in let s' := @mkSegment (RS 1) 2 (1, (2, tt)) (3, (0, tt)) in
  ~ vertical s /\ ~ vertical s' /\ on_line_of s (1, (1, tt)) /\ on_line_of s' (1, (2, tt)) /\ later_left s s' = 1 /\ below s s' = true.
Proof.
  intros s s'. assert (V : ~ vertical s) by (unfold vertical; cbn; lra). assert (V' : ~ vertical s') by (unfold vertical; cbn; lra).
  assert (L : on_line_of s (1, (1, tt))) by (exists (3 / 4); unfold along; cbn; repeat (apply f_equal2; [field|]); reflexivity).
  assert (L' : on_line_of s' (1, (2, tt))) by (exists 0; unfold along; cbn; repeat (apply f_equal2; [field|]); reflexivity).
  assert (E : later_left s s' = 1) by (unfold later_left; cbn; rewrite (Rmin_right 4 0), (Rmin_left 1 3), Rmax_right by lra; reflexivity).
  repeat (split; [assumption|]). apply (C95_order 1 s s' (1, (1, tt)) (1, (2, tt)) V V' L L' (eq_sym E) (eq_sym E)). cbn. lra.
Qed.
