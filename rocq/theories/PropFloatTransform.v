(** * Property theorems: transformations in floating point (C71) *)

From Coq Require Import List Bool Arith Lia ZArith Reals Lra Psatz.
From Flocq Require Import Core BinarySingleNaN.
From Verif Require Import Scalar Linal Result SpecReal VecR VecLemmas ModelShapes ModelBox ModelTransform SpecTransform
  SpecIEEE SpecFloatErr SpecFloatTess SpecFloatTransform ProofTransform ProofRound ProofIEEE ProofBoxIEEE ProofFloatErr ProofFloatNorm ProofFloatDist
  ProofFloatRound PropFloatTess ProofFloatTransform.
Import ListNotations.
Local Open Scope R_scope.

(** ** C71: a transformed point is the exact image up to a few roundings of the
    largest terms, for every matrix of finite entries (D = 2, 3) *)
Theorem C71_point :
  forall p e Hp He f g h pi, let S := IEEE p e Hp He f g h pi in
  forall n (v : vec (binary_float p e) n) (X : hmat (binary_float p e)),
    (n = 2 \/ n = 3)%nat -> 5 * uround p <= 1 / 32 -> finite_rows n X -> image_range X v ->
    image_close X v (@transform_vec S n v X).
Proof. intros p e Hp He f g h pi S n v X Hn Hu FX (Fv & Hv). exact (transform_err f g h pi n v X Hn Hu FX Fv Hv). Qed.
Print Assumptions C71_point.

(** the shapes: their points are moved, their radii stay the same *)
Theorem C71_shapes :
  forall p e Hp He f g h pi, let S := IEEE p e Hp He f g h pi in
  forall X : hmat (binary_float p e), 5 * uround p <= 1 / 32 -> finite_rows 3 X ->
    let moved (v x : vec (binary_float p e) 3) := image_range X v -> image_close X v x in
    (forall s : segment S 3, moved (g_source s) (g_source (transform_segment s X)) /\ moved (g_target s) (g_target (transform_segment s X))) /\
    (forall s : sphere S, moved (s_origin s) (s_origin (transform_sphere s X)) /\ s_radius (transform_sphere s X) = s_radius s) /\
    (forall c : cone S, moved (g_source (co_segment c)) (g_source (co_segment (transform_cone c X))) /\
       moved (g_target (co_segment c)) (g_target (co_segment (transform_cone c X))) /\ co_radius (transform_cone c X) = co_radius c) /\
    (forall c : cylinder S, moved (g_source (cy_segment c)) (g_source (cy_segment (transform_cylinder c X))) /\
       moved (g_target (cy_segment c)) (g_target (cy_segment (transform_cylinder c X))) /\ cy_radius (transform_cylinder c X) = cy_radius c) /\
    (forall c : circle3 S, moved (c3_origin c) (c3_origin (transform_circle3 c X)) /\ c3_radius (transform_circle3 c X) = c3_radius c).
Proof.
  intros p e Hp He f g h pi S X Hu FX moved.
  assert (K : forall v : vec (binary_float p e) 3, moved v (@transform_vec S 3 v X)).
  { intros v Hv. apply (C71_point p e Hp He f g h pi 3 v X); auto. }
  split; [intros s; split; apply K|]. split; [intros s; split; [apply K|reflexivity]|].
  split; [intros c; split; [apply K|split; [apply K|reflexivity]]|]. split; [intros c; split; [apply K|split; [apply K|reflexivity]]|].
  intros c; split; [apply K|reflexivity].
Qed.
Print Assumptions C71_shapes.

(** matrices close to a rigid motion keep distances up to a small error *)
Theorem C71_distances :
  forall p e Hp He f g h pi, let S := IEEE p e Hp He f g h pi in
  forall (A : vec (vec R 3) 3) (X : hmat (binary_float p e)) (v w : vec (binary_float p e) 3) (d rho M : R),
    5 * uround p <= 1 / 32 -> rigid (affine A rzero) -> rotation_within d A X -> d <= 1 / 2 ->
    finite_rows 3 X -> (forall i, (i < 3)%nat -> Rabs (B2R (entry i 3 X)) <= M) ->
    finite_pt v -> finite_pt w -> (forall i, (i < 3)%nat -> Rabs (fval i v) <= rho /\ Rabs (fval i w) <= rho) ->
    5 * rho + M <= bpow radix2 (e - 2) ->
    let x := @transform_vec S 3 v X : vec (binary_float p e) 3 in let y := @transform_vec S 3 w X : vec (binary_float p e) 3 in
    finite_pt x /\ finite_pt y /\
    Rabs (rdist (vreal x) (vreal y) - rdist (vreal v) (vreal w)) <=
      9 * d * rdist (vreal v) (vreal w) + 36 * uround p * (5 * rho + M) + 30 * uflow p e.
Proof.
  intros p e Hp He f g h pi S A X v w d rho M Hu5 HA HX Hd FX HM Fv Fw Hr Hrange x y.
  pose proof (@u_pos p) as Hu. pose proof (@eta_pos p e) as Hh.
  assert (rho0 : 0 <= rho) by (eapply Rle_trans; [apply Rabs_pos|apply (Hr 0%nat); lia]).
  assert (d0 : 0 <= d) by (eapply Rle_trans; [apply Rabs_pos|apply (HX 0%nat 0%nat); lia]).
  assert (HE : forall i j, (i < 3)%nat -> (j < 3)%nat -> Rabs (B2R (entry i j X)) <= 3 / 2).
  { intros i j Hi Hj. destruct (HX i j Hi Hj) as (_ & Q). pose proof (rigid_entry A HA i j Hi Hj) as Q'.
    replace (B2R (entry i j X)) with (vnth 0 j (vnth rzero i A) + (B2R (entry i j X) - vnth 0 j (vnth rzero i A))) by ring.
    eapply Rle_trans; [apply Rabs_triang|]. lra. }
  assert (HT : forall (z : vec (binary_float p e) 3) i, (i < 3)%nat -> (forall j, (j < 3)%nat -> Rabs (fval j z) <= rho) -> image_terms X z i <= 5 * rho + M).
  { intros z i Hi Hz. unfold image_terms, total. cbn [seq map fold_right]. rewrite !Rabs_mult.
    assert (T : forall j, (j < 3)%nat -> Rabs (B2R (entry i j X)) * Rabs (fval j z) <= 3 / 2 * rho).
    { intros j Hj. apply Rmult_le_compat; try apply Rabs_pos; auto. }
    pose proof (T 0%nat ltac:(lia)). pose proof (T 1%nat ltac:(lia)). pose proof (T 2%nat ltac:(lia)). pose proof (HM i Hi). lra. }
  assert (HC : forall z : vec (binary_float p e) 3, finite_pt z -> (forall j, (j < 3)%nat -> Rabs (fval j z) <= rho) ->
    finite_pt (@transform_vec S 3 z X : vec (binary_float p e) 3) /\
    forall i, (i < 3)%nat -> Rabs (fval i (@transform_vec S 3 z X : vec (binary_float p e) 3) - image_coord X z i) <= 6 * uround p * (5 * rho + M) + 5 * uflow p e).
  { intros z Fz Hz. assert (Rz : image_range X z).
    { split; [exact Fz|]. intros i Hi. eapply Rle_trans; [apply HT; assumption|exact Hrange]. }
    destruct (C71_point p e Hp He f g h pi 3 z X (or_intror eq_refl) Hu5 FX Rz) as (F & E). split; [exact F|]. intros i Hi.
    eapply Rle_trans; [exact (E i Hi)|]. apply Rplus_le_compat_r. apply Rmult_le_compat_l; [lra|]. apply HT; assumption. }
  destruct (HC v Fv (fun j Hj => proj1 (Hr j Hj))) as (Fx & Ex). destruct (HC w Fw (fun j Hj => proj2 (Hr j Hj))) as (Fy & Ey).
  fold x in Fx, Ex. fold y in Fy, Ey. split; [exact Fx|]. split; [exact Fy|].
  set (eps := 6 * uround p * (5 * rho + M) + 5 * uflow p e) in *.
  set (D := rdist (vreal v) (vreal w)) in *.
  assert (HD : forall j, (j < 3)%nat -> Rabs (fval j v - fval j w) <= D).
  { intros j Hj. unfold D, rdist, rnorm. rewrite <- sqrt_Rsqr_abs. apply sqrt_le_1_alt. unfold Rsqr.
    destruct v as (v0 & v1 & v2 & []), w as (w0 & w1 & w2 & []). unfold fval, vreal. 
    pose proof (Rle_0_sqr (B2R v0 - B2R w0)) as S0. pose proof (Rle_0_sqr (B2R v1 - B2R w1)) as S1. pose proof (Rle_0_sqr (B2R v2 - B2R w2)) as S2. unfold Rsqr in *.
    destruct j as [|[|[|j]]]; try lia; cbn -[B2R]; lra. }
  assert (D0 : 0 <= D) by apply rdist_nonneg.
  set (a := affine A rzero (vreal v)). set (b := affine A rzero (vreal w)).
  set (q := rsub (rsub (vreal x) (vreal y)) (rsub a b)).
  assert (Q : rnorm q <= 3 * (2 * eps + 3 * d * D)).
  { pose proof (rnorm_errors 3 q rzero 0 (2 * eps + 3 * d * D)) as RE. rewrite Rmult_0_l, Rplus_0_l in RE.
    replace (INR 3) with 3 in RE by (cbn; ring). apply RE; [lra| |].
    - assert (0 <= eps) by (eapply Rle_trans; [apply Rabs_pos|apply (Ex 0%nat); lia]). assert (0 <= d * D) by (apply Rmult_le_pos; assumption). lra.
    - intros i Hi. rewrite Rmult_0_l, Rplus_0_l.
      assert (Eq : vnth 0 i q = (fval i x - image_coord X v i) - (fval i y - image_coord X w i) +
        total 3 (fun j => (B2R (entry i j X) - vnth 0 j (vnth rzero i A)) * (fval j v - fval j w))).
      { unfold q, a, b, rsub, image_coord, total. rewrite !(vnth_vmap2 0 0 0) by exact Hi. rewrite !vnth_real. unfold affine, radd. rewrite !(vnth_vmap2 0 0 0) by exact Hi.
        rewrite !(vnth_vmap rzero 0) by exact Hi. set (row := vnth rzero i A).
        assert (Er : forall z : vec (binary_float p e) 3, rdot row (vreal z) = vnth 0 0 row * fval 0 z + (vnth 0 1 row * fval 1 z + (vnth 0 2 row * fval 2 z + 0))).
        { intros z. rewrite <- !vnth_real. destruct row as (r0 & r1 & r2 & []), (vreal z) as (z0 & z1 & z2 & []). reflexivity. }
        rewrite !Er. cbn [seq map fold_right]. ring. }
      rewrite Eq. eapply Rle_trans; [apply Rabs_triang|].
      assert (T1 : Rabs (fval i x - image_coord X v i - (fval i y - image_coord X w i)) <= 2 * eps).
      { unfold Rminus at 1. eapply Rle_trans; [apply Rabs_triang|]. rewrite Rabs_Ropp. pose proof (Ex i Hi). pose proof (Ey i Hi). lra. }
      assert (T2 : Rabs (total 3 (fun j => (B2R (entry i j X) - vnth 0 j (vnth rzero i A)) * (fval j v - fval j w))) <= 3 * d * D).
      { unfold total. cbn [seq map fold_right].
        assert (T : forall j, (j < 3)%nat -> Rabs ((B2R (entry i j X) - vnth 0 j (vnth rzero i A)) * (fval j v - fval j w)) <= d * D).
        { intros j Hj. rewrite Rabs_mult. apply Rmult_le_compat; try apply Rabs_pos; [apply (HX i j Hi Hj)|apply HD, Hj]. }
        pose proof (T 0%nat ltac:(lia)). pose proof (T 1%nat ltac:(lia)). pose proof (T 2%nat ltac:(lia)).
        rewrite Rplus_0_r. eapply Rle_trans; [apply Rabs_triang|]. eapply Rle_trans; [apply Rplus_le_compat_l, Rabs_triang|]. lra. }
      lra. }
  assert (N1 : rdist (vreal x) (vreal y) <= rdist a b + rnorm q).
  { unfold rdist. replace (rsub (vreal x) (vreal y)) with (radd (rsub a b) q); [apply rnorm_triangle|]. unfold q. apply radd_rsub. }
  assert (N2 : rdist a b <= rdist (vreal x) (vreal y) + rnorm q).
  { unfold rdist. replace (rsub a b) with (radd (rsub (vreal x) (vreal y)) (rscale (-1) q)).
    - eapply Rle_trans; [apply rnorm_triangle|]. rewrite rnorm_scale, Rabs_left by lra. lra.
    - unfold q. apply eq_by_dot. vring. }
  assert (ED : rdist a b = D) by apply HA. apply Rabs_le. unfold eps in Q. lra.
Qed.
Print Assumptions C71_distances.

(** boxes: if the linear part of the matrix has no negative entry (translations,
    scalings), every point of the box is moved into the transformed box - exactly,
    although both are rounded *)
Theorem C71_box :
  forall p e Hp He f g h pi, let S := IEEE p e Hp He f g h pi in
  forall (L : Linal S) dbg n (X : hmat (binary_float p e)) (b b' : aabb S n), (n = 2 \/ n = 3)%nat ->
    (forall i j, (i < n)%nat -> (j < n)%nat -> 0 <= B2R (entry i j X)) ->
    transform_aabb L dbg b X = Ok b' ->
    finite_pt (a_min b' : vec (binary_float p e) n) -> finite_pt (a_max b' : vec (binary_float p e) n) ->
    forall x : vec (binary_float p e) n, in_fbox (a_min b) (a_max b) x ->
      in_fbox (a_min b') (a_max b') (@transform_vec S n x X).
Proof.
  intros p e Hp He f g h pi S L dbg n X b b' Hn HX E F1 F2 x Hx.
  assert (Eb : b' = @mkAABB S n (transform_vec (a_min b) X) (transform_vec (a_max b) X)).
  { unfold transform_aabb, aabb_make in E. destruct (geo_assert _ _); try discriminate E. cbn [bind] in E. injection E as <-. reflexivity. }
  rewrite Eb in *. cbn [a_min a_max] in *. exact (transform_between f g h pi n X (a_min b) (a_max b) x Hn HX F1 F2 Hx).
Qed.
Print Assumptions C71_box.

(** every release build transforms the box; a debug build does so if the
    transformed corners differ by more than the slack of the comparisons *)
Theorem C71_box_built :
  forall p e Hp He f g h pi, let S := IEEE p e Hp He f g h pi in
  forall (L : Linal S) t, LinalF L t -> forall dbg n (X : hmat (binary_float p e)) (b : aabb S n),
    let lo := @transform_vec S n (a_min b) X : vec (binary_float p e) n in let hi := @transform_vec S n (a_max b) X : vec (binary_float p e) n in
    finite_pt lo -> finite_pt hi -> dbg = false \/ (forall i, (i < n)%nat -> fval i lo + t < fval i hi) ->
    transform_aabb L dbg b X = Ok (@mkAABB S n lo hi).
Proof.
  intros p e Hp He f g h pi S L t HL dbg n X b lo hi F1 F2 H.
  change (transform_aabb L dbg b X) with (@aabb_make S L dbg n lo hi). unfold aabb_make.
  destruct H as [-> | H]; [rewrite geo_assert_off; reflexivity|].
  assert (V : @aabb_is_valid S L n (@mkAABB S n lo hi) = true).
  { unfold aabb_is_valid. apply negb_true_iff. cbn [a_min a_max]. apply (vex2_false (B754_zero false : binary_float p e) (B754_zero false : binary_float p e)). intros i Hi.
    destruct (isGreaterEq L _ _ _) eqn:G; [|reflexivity]. apply (lf_greatereq_1 _ _ HL) in G; [|apply F1, Hi|apply F2, Hi].
    specialize (H i Hi). unfold fval in H. lra. }
  rewrite V. destruct dbg; reflexivity.
Qed.
Print Assumptions C71_box_built.

(** Translating a valid box can abort a debug build: far from the origin its
    corners are rounded to the same point (double precision, every comparison with
    a slack below 1). *)
Definition far_matrix : hmat b64 :=
  let o := b64_ofZ 1 in let z := b64_ofZ 0 in let t := b64_pow 1 60 in
  mk4 (mk4 o z z t) (mk4 z o z t) (mk4 z z o t) (mk4 z z z o).
Theorem C71_box_absorbed_refuted :
  forall f g h pi, let S := B64 f g h pi in
  forall (L : Linal S) t, LinalF L t -> t < 1 ->
  exists b : aabb S 3, aabb_make L true (a_min b) (a_max b) = Ok b /\
    finite_pt (@transform_vec S 3 (a_min b) far_matrix : vec b64 3) /\ finite_pt (@transform_vec S 3 (a_max b) far_matrix : vec b64 3) /\
    transform_aabb L true b far_matrix = Trap.
Proof.
  intros f g h pi S L t HL Ht.
  destruct (b64_small 1 ltac:(lia)) as (F1 & E1). 
  set (lo := mk3 (b64_ofZ 0) (b64_ofZ 0) (b64_ofZ 0) : vec b64 3). set (hi := mk3 (b64_ofZ 1) (b64_ofZ 1) (b64_ofZ 1) : vec b64 3).
  exists (@mkAABB S 3 lo hi). cbn [a_min a_max]. split.
  { unfold aabb_make. assert (V : @aabb_is_valid S L 3 (@mkAABB S 3 lo hi) = true).
    { unfold aabb_is_valid. apply negb_true_iff. cbn [a_min a_max]. apply (vex2_false (B754_zero false : b64) (B754_zero false : b64)). intros i Hi.
      assert (K : isGreaterEq L (leps L) (b64_ofZ 0) (b64_ofZ 1) = false).
      { destruct (isGreaterEq L (leps L) (b64_ofZ 0) (b64_ofZ 1)) eqn:G; [|reflexivity]. apply (lf_greatereq_1 _ _ HL) in G; [|reflexivity|exact F1].
        rewrite E1 in G. change (B2R (b64_ofZ 0)) with 0 in G. lra. }
      destruct i as [|[|[|i]]]; try lia; exact K. }
    rewrite V. reflexivity. }
  assert (FF : forall q : vec b64 3, (q = lo \/ q = hi) -> finite_pt (@transform_vec S 3 q far_matrix : vec b64 3)).
  { intros q [->| ->] [|[|[|i]]] Hi; try lia; vm_compute; reflexivity. }
  split; [apply FF; auto|]. split; [apply FF; auto|].
  change (transform_aabb L true (@mkAABB S 3 lo hi) far_matrix) with
    (@aabb_make S L true 3 (@transform_vec S 3 lo far_matrix) (@transform_vec S 3 hi far_matrix)).
  unfold aabb_make.
  assert (V : @aabb_is_valid S L 3 (@mkAABB S 3 (@transform_vec S 3 lo far_matrix) (@transform_vec S 3 hi far_matrix)) = false).
  { unfold aabb_is_valid. apply negb_false_iff. cbn [a_min a_max]. apply (vex2_true (B754_zero false : b64) (B754_zero false : b64)). exists 0%nat. split; [lia|].
    pose proof (FF lo (or_introl eq_refl) 0%nat ltac:(lia)) as G1. pose proof (FF hi (or_intror eq_refl) 0%nat ltac:(lia)) as G2.
    apply (lf_greatereq_0 _ _ HL); [exact G1|exact G2|].
    assert (Q : Beqb (vnth (B754_zero false) 0 (@transform_vec S 3 hi far_matrix : vec b64 3)) (vnth (B754_zero false) 0 (@transform_vec S 3 lo far_matrix : vec b64 3)) = true) by (vm_compute; reflexivity).
    apply eqb_B2R in Q; [|exact G1]. apply Req_le, Q. }
  rewrite V. reflexivity.
Qed.
Print Assumptions C71_box_absorbed_refuted.

(** the rotation x -> y -> z -> x followed by a translation *)
Definition cycle3 : vec (vec R 3) 3 := ((0, (0, (1, tt))), ((1, (0, (0, tt))), ((0, (1, (0, tt))), tt))).
Definition cycle_matrix : hmat b64 :=
  let o := b64_ofZ 1 in let z := b64_ofZ 0 in
  mk4 (mk4 z z o (b64_ofZ 5)) (mk4 o z z (b64_ofZ 2)) (mk4 z o z (b64_ofZ 7)) (mk4 z z z o).
Example C71_example :
  let v := mk3 (b64_ofZ 1) (b64_ofZ 2) (b64_ofZ 3) : vec b64 3 in let w := mk3 (b64_ofZ 2) (b64_ofZ 3) (b64_ofZ 7) : vec b64 3 in
  5 * uround 53 <= 1 / 32 /\ rigid (affine cycle3 rzero) /\ rotation_within 0 cycle3 cycle_matrix /\ finite_rows 3 cycle_matrix /\
  (forall i, (i < 3)%nat -> Rabs (B2R (entry i 3 cycle_matrix)) <= 7) /\ finite_pt v /\ finite_pt w /\
  (forall i, (i < 3)%nat -> Rabs (fval i v) <= 7 /\ Rabs (fval i w) <= 7) /\ 5 * 7 + 7 <= bpow radix2 (1024 - 2) /\
  (forall i j, (i < 3)%nat -> (j < 3)%nat -> 0 <= B2R (entry i j cycle_matrix)) /\ in_fbox v w v /\ image_range cycle_matrix v.
Proof.
  intros v w.
  assert (F0 : is_finite (b64_ofZ 0) = true) by reflexivity. assert (E0 : B2R (b64_ofZ 0) = 0) by reflexivity.
  destruct (b64_small 1 ltac:(lia)) as (F1 & E1). destruct (b64_small 2 ltac:(lia)) as (F2 & E2).
  destruct (b64_small 3 ltac:(lia)) as (F3 & E3). destruct (b64_small 5 ltac:(lia)) as (F5 & E5). destruct (b64_small 7 ltac:(lia)) as (F7 & E7).
  assert (B : bpow radix2 10 <= bpow radix2 (1024 - 2)) by (apply bpow_le; lia). change (bpow radix2 10) with 1024 in B.
  split. { assert (u9 : uround 53 <= bpow radix2 (-20)) by (apply bpow_le; lia). assert (1000000 * bpow radix2 (-20) <= 1) by (cbn; lra). lra. }
  split. { intros (a & b & c & []) (x & y & z & []). unfold rdist, rnorm. apply (f_equal sqrt). cbn. ring. }
  split. { intros [|[|[|i]]] [|[|[|j]]] Hi Hj; try lia; (split; [first [exact F0|exact F1]|]);
    [change (Rabs (B2R (b64_ofZ 0) - 0) <= 0)|change (Rabs (B2R (b64_ofZ 0) - 0) <= 0)|change (Rabs (B2R (b64_ofZ 1) - 1) <= 0)
    |change (Rabs (B2R (b64_ofZ 1) - 1) <= 0)|change (Rabs (B2R (b64_ofZ 0) - 0) <= 0)|change (Rabs (B2R (b64_ofZ 0) - 0) <= 0)
    |change (Rabs (B2R (b64_ofZ 0) - 0) <= 0)|change (Rabs (B2R (b64_ofZ 1) - 1) <= 0)|change (Rabs (B2R (b64_ofZ 0) - 0) <= 0)];
    rewrite ?E0, ?E1; unfold Rminus; rewrite Rplus_opp_r, Rabs_R0; lra. }
  split. { intros [|[|[|i]]] [|[|[|[|j]]]] Hi Hj; try lia; first [exact F0|exact F1|exact F5|exact F2|exact F7]. }
  split. { intros [|[|[|i]]] Hi; try lia; [change (Rabs (B2R (b64_ofZ 5)) <= 7)|change (Rabs (B2R (b64_ofZ 2)) <= 7)|change (Rabs (B2R (b64_ofZ 7)) <= 7)];
    rewrite ?E5, ?E2, ?E7, Rabs_pos_eq; lra. }
  assert (Fv : finite_pt v) by (intros [|[|[|i]]] Hi; try lia; assumption).
  split; [exact Fv|]. split; [intros [|[|[|i]]] Hi; try lia; assumption|].
  split. { intros [|[|[|i]]] Hi; try lia; unfold v, w, fval, mk3; cbn [vnth fst snd]; rewrite ?E1, ?E2, ?E3, ?E7, !Rabs_pos_eq; lra. }
  split; [lra|].
  split. { intros [|[|[|i]]] [|[|[|j]]] Hi Hj; try lia; unfold entry, cycle_matrix, mk4; cbn [vnth fst snd]; rewrite ?E0, ?E1; lra. }
  split. { split; [exact Fv|]. intros [|[|[|i]]] Hi; try lia; unfold v, w, fval, mk3; cbn [vnth fst snd]; rewrite ?E1, ?E2, ?E3, ?E7; lra. }
  split; [exact Fv|]. intros i Hi. apply Rle_trans with 1024; [|exact B].
  unfold image_terms, total. cbn [seq map fold_right].
  destruct i as [|[|[|i]]]; try lia; unfold entry, cycle_matrix, v, fval, mk4, mk3; cbn [vnth fst snd];
    rewrite ?E0, ?E1, ?E2, ?E3, ?E5, ?E7, !Rabs_pos_eq; lra.
Qed.
