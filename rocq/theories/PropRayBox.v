(** * Property theorems: ray / box intersection (C11)

    Exact arithmetic on extended reals; inputs are finite, the infinities are
    those of the code.  [LinalX L e] is the contract of the comparisons on
    finite values, [e] the tolerance, [M] the largest number. *)

From Coq Require Import List Arith Bool Lia Reals Lra Psatz.
From Verif Require Import Scalar Linal Result SpecReal VecR VecLemmas ModelShapes ModelBox SpecBox ModelRayBox SpecRayBox
  ProofRayBox PropDistance.
Local Open Scope R_scope.

(** A ray that meets the box is reported; components of the direction are 0 or
    beyond the tolerance *)
Theorem C11_is_intersecting_complete_partial :
  forall (M e : R) (L : Linal (XS M)), LinalX L e -> 0 < M ->
  forall (o d mn mx : vec R 3) (t : R), d <> rzero -> clean_dir e d ->
    0 <= t -> in_box mn mx (along o d t) ->
    ray_box_is_intersecting L (xray o d) (xbox mn mx) = true.
Proof. intros M e L HL HM o d mn mx t. exact (ray_box_complete HL o d mn mx t HM). Qed.
Print Assumptions C11_is_intersecting_complete_partial.

(** A reported ray passes the box within the tolerance; for directions with a
    nonzero component below the tolerance the error grows with the distance *)
Theorem C11_is_intersecting_sound :
  forall (M e : R) (L : Linal (XS M)), LinalX L e -> 0 < M -> e < 2 * M ->
  forall (o d mn mx : vec R 3),
    (forall i, (i < 3)%nat -> comp i mn <= comp i mx) ->
    (forall i, (i < 3)%nat -> Rabs (comp i d) <= 1) -> (exists i, (i < 3)%nat /\ e < Rabs (comp i d)) ->
    ray_box_is_intersecting L (xray o d) (xbox mn mx) = true ->
    exists t, 0 <= t /\ near_box (e * (1 + t)) mn mx (along o d t) /\
      (clean_dir e d -> near_box e mn mx (along o d t)).
Proof. intros M e L HL HM HeM o d mn mx. exact (ray_box_sound HL o d mn mx HM HeM). Qed.
Print Assumptions C11_is_intersecting_sound.

(** The points: the entry (exit) point is where the ray enters (leaves) the box;
    the call never fails; nothing is missed when the ray stays in the box for
    longer than the tolerance *)
Theorem C11_intersect_points :
  forall (M e : R) (L : Linal (XS M)), LinalX L e -> 0 < M -> e < 2 * M ->
  forall (fill dbg : bool) (o d mn mx : vec R 3),
    (forall i, (i < 3)%nat -> comp i mn <= comp i mx) -> d <> rzero -> clean_dir e d ->
    exists h a b, ray_box_intersect L fill dbg (xray o d) (xbox mn mx) = Ok h /\
      (h_has_enter h = true ->
         h_enter h = finv (along o d a) /\ - e <= a < b /\ near_box e mn mx (along o d a) /\
         forall t, in_box mn mx (along o d t) -> a <= t) /\
      (h_has_exit h = true ->
         h_exit h = finv (along o d b) /\ - e <= b /\ a < b /\ near_box e mn mx (along o d b) /\
         forall t, in_box mn mx (along o d t) -> t <= b) /\
      (forall t1 t2, in_box mn mx (along o d t1) -> in_box mn mx (along o d t2) -> e < t2 - t1 -> 0 <= t2 ->
         hits_bool h = true /\ h_has_exit h = true /\
         ((forall t, t < 0 -> ~ near_box e mn mx (along o d t)) -> h_has_enter h = true) /\
         (t1 < - e -> h_has_enter h = false)) /\
      ((forall t, - e <= t -> ~ near_box e mn mx (along o d t)) -> hits_bool h = false).
Proof.
  intros M e L HL HM HeM fill dbg o d mn mx Hb Hd Hc. destruct (ray_box_points HL fill dbg o d mn mx HM HeM Hb Hd Hc) as (h & a & b & H1 & H2 & H3 & H4 & H5).
  exists h, a, b. split; [exact H1|]. split; [exact H2|]. split; [exact H3|]. split; [|exact H5].
  intros t1 t2 I1 I2 Ht H0. specialize (H4 t1 t2 I1 I2 Ht H0). split; [|exact H4]. unfold hits_bool. rewrite (proj1 H4). apply Bool.orb_true_r.
Qed.
Print Assumptions C11_intersect_points.

(** the unit cube and a ray along (3/5, 4/5, 0) that touches its edge through
    (0, 1): is_intersecting says yes, intersect returns no point *)
Theorem C11_touching_ray_refuted :
  forall (M e : R) (L : Linal (XS M)), LinalX L e -> 0 < M -> e < 3 / 5 ->
  forall (fill dbg : bool),
    let o := mk3 (-3) (-3) (/ 2) in
    let d := mk3 (3 / 5) (4 / 5) 0 in
    let mn := mk3 0 0 0 in
    let mx := mk3 1 1 1 in
    rnorm d = 1 /\ in_box mn mx (along o d 5) /\
    ray_box_is_intersecting L (xray o d) (xbox mn mx) = true /\
    exists h, ray_box_intersect L fill dbg (xray o d) (xbox mn mx) = Ok h /\ hits_bool h = false.
Proof. intros M e L HL HM. exact (touching HL HM). Qed.
Print Assumptions C11_touching_ray_refuted.

(** any number that counts as zero is treated as an axis-parallel direction:
    this ray passes through the centre of the box and is not reported *)
Theorem C11_nearly_parallel_refuted :
  forall (M e : R) (L : Linal (XS M)), LinalX L e -> 0 < M -> e < 2 * M -> e < 3 ->
  forall x, 0 < x < 1 -> isZero L (leps L) (Fin x) = true ->
    let o := mk3 0 0 0 in
    let d := mk3 (sqrt (1 - x * x)) x 0 in
    let mn := mk3 (4 / x * sqrt (1 - x * x) - 1) 3 (-1) in
    let mx := mk3 (4 / x * sqrt (1 - x * x) + 1) 5 1 in
    rnorm d = 1 /\ inside_box mn mx (along o d (4 / x)) /\
    ray_box_is_intersecting L (xray o d) (xbox mn mx) = false.
Proof. intros M e L HL HM. exact (nearly_parallel HL HM). Qed.
Print Assumptions C11_nearly_parallel_refuted.

Example C11_example :
  let o := mk3 (-2) (/ 2) (/ 2) in
  let d := mk3 1 0 0 in
  let mn := mk3 0 0 0 in
  let mx := mk3 1 1 1 in
  let L := tol_linal (XS 100) (Fin (/ 10)) in
  ray_box_is_intersecting L (xray o d) (xbox mn mx) = true /\
  exists h, ray_box_intersect L true true (xray o d) (xbox mn mx) = Ok h /\
    h_has_enter h = true /\ h_enter h = finv (mk3 0 (/ 2) (/ 2)) /\
    h_has_exit h = true /\ h_exit h = finv (mk3 1 (/ 2) (/ 2)).
Proof. exact ray_box_example. Qed.
Example C11_nearly_parallel_example : isZero (tol_linal (XS 100) (Fin (/ 10))) (Fin (/ 10)) (Fin (/ 20)) = true.
Proof.
  cbn. unfold xleb. cbn. rewrite (Rabs_pos_eq (/ 20)) by lra.
  now rewrite (proj2 (Rltb_true _ _)) by lra.
Qed.
