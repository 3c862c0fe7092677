(** * Properties of transformations (C36, C37) *)

From Coq Require Import Reals Lra Psatz List Bool Arith Lia.
From Verif Require Import Scalar Linal Result SpecReal SpecBox VecR VecLemmas ModelShapes ModelBox ModelTransform
  SpecTransform ProofTransform.
Local Open Scope R_scope.

(** rotation by 90 degrees about the z axis followed by a translation *)
Definition rotA : vec (vec R 3) 3 := ((0, (-1, (0, tt))), ((1, (0, (0, tt))), ((0, (0, (1, tt))), tt))).
Definition rotT : vec R 3 := (1, (2, (3, tt))).
Definition row4 : vec R 4 := (0, (0, (0, (1, tt)))).
Lemma rotA_rigid : rigid (affine rotA rotT).
Proof.
  intros (a & b & c & []) (x & y & z & []). unfold rdist, rnorm. apply (f_equal sqrt). cbn. ring.
Qed.
(** rotation by 90 degrees about the x axis *)
Definition rotX : vec (vec R 3) 3 := ((1, (0, (0, tt))), ((0, (0, (-1, tt))), ((0, (1, (0, tt))), tt))).
Lemma rotX_rigid t : rigid (affine rotX t).
Proof.
  destruct t as (t0 & t1 & t2 & []).
  intros (a & b & c & []) (x & y & z & []). unfold rdist, rnorm. apply (f_equal sqrt). cbn. ring.
Qed.

(** every homogeneous matrix is covered by the theorems below *)
Theorem C36_all_matrices : forall m : hmat R, exists A t l, m = hmat_of A t l.
Proof. exact hmat_decompose. Qed.
Print Assumptions C36_all_matrices.

(** C36: points are mapped by the affine map of the matrix, whatever its last
    row is; the planar version uses the upper left 2x2 part. *)
Theorem C36_vec :
  forall (M : R) (A : vec (vec R 3) 3) (t : vec R 3) (l : vec R 4) (p : vec R 3),
    @transform_vec (RS M) 3 p (hmat_of A t l) = affine A t p.
Proof. exact transform_vec3_R. Qed.
Print Assumptions C36_vec.

Theorem C36_vec2 :
  forall (M a b c d e f g h i x y z u v : R) (l : vec R 4),
    @transform_vec (RS M) 2 (u, (v, tt))
      (hmat_of ((a, (b, (c, tt))), ((d, (e, (f, tt))), ((g, (h, (i, tt))), tt))) (x, (y, (z, tt))) l)
    = (a * u + b * v + x, (d * u + e * v + y, tt)).
Proof. intros. rewrite transform_vec2_R. cbn. repeat (apply f_equal2; [ring|]). reflexivity. Qed.
Print Assumptions C36_vec2.

(** C36, segments: for every matrix the transformed segment is the image of the
    segment. *)
Theorem C36_segment :
  forall (M : R) (A : vec (vec R 3) 3) (t : vec R 3) (l : vec R 4) (s : segment (RS M) 3),
    is_image (affine A t) (on_segment (g_source s) (g_target s))
      (on_segment (g_source (transform_segment s (hmat_of A t l))) (g_target (transform_segment s (hmat_of A t l)))).
Proof.
  intros M A t l [a b]. unfold transform_segment. cbn [g_source g_target].
  pose proof (transform_vec3_R M A t l a) as Ea. pose proof (transform_vec3_R M A t l b) as Eb.
  unfold transform_vec in Ea, Eb. rewrite Ea, Eb. apply segment_image.
Qed.
Print Assumptions C36_segment.

(** C36, spheres: a rigid motion maps the sphere onto the transformed sphere. *)
Theorem C36_sphere :
  forall (M : R) (A : vec (vec R 3) 3) (t : vec R 3) (l : vec R 4) (s : sphere (RS M)),
    rigid (affine A t) ->
    is_image (affine A t) (on_sphere (s_origin s) (s_radius s))
      (on_sphere (s_origin (transform_sphere s (hmat_of A t l))) (s_radius (transform_sphere s (hmat_of A t l)))).
Proof.
  intros M A t l [c r] H. unfold transform_sphere. cbn [s_origin s_radius].
  pose proof (transform_vec3_R M A t l c) as E. rewrite E. apply sphere_image, H.
Qed.
Print Assumptions C36_sphere.

(** C36, solid cylinders and cones *)
Theorem C36_cylinder :
  forall (M : R) (A : vec (vec R 3) 3) (t : vec R 3) (l : vec R 4) (c : cylinder (RS M)),
    rigid (affine A t) ->
    let c' := transform_cylinder c (hmat_of A t l) in
    is_image (affine A t)
      (in_cylinder (g_source (cy_segment c)) (g_target (cy_segment c)) (cy_radius c))
      (in_cylinder (g_source (cy_segment c')) (g_target (cy_segment c')) (cy_radius c')).
Proof.
  intros M A t l [[a b] r] H. unfold transform_cylinder, transform_segment. cbn [cy_segment cy_radius g_source g_target].
  pose proof (transform_vec3_R M A t l a) as Ea. pose proof (transform_vec3_R M A t l b) as Eb.
  unfold transform_vec in Ea, Eb. rewrite Ea, Eb. exact (axis_image A t a b (fun _ => r) H).
Qed.
Print Assumptions C36_cylinder.

Theorem C36_cone :
  forall (M : R) (A : vec (vec R 3) 3) (t : vec R 3) (l : vec R 4) (c : cone (RS M)),
    rigid (affine A t) ->
    let c' := transform_cone c (hmat_of A t l) in
    is_image (affine A t)
      (in_cone (g_source (co_segment c)) (g_target (co_segment c)) (co_radius c))
      (in_cone (g_source (co_segment c')) (g_target (co_segment c')) (co_radius c')).
Proof.
  intros M A t l [[a b] r] H. unfold transform_cone, transform_segment. cbn [co_segment co_radius g_source g_target].
  pose proof (transform_vec3_R M A t l a) as Ea. pose proof (transform_vec3_R M A t l b) as Eb.
  unfold transform_vec in Ea, Eb. rewrite Ea, Eb. exact (axis_image A t a b (fun s => (1 - s) * r) H).
Qed.
Print Assumptions C36_cone.

(** C36, planar circles: the map of the plane given by the upper left part. *)
Theorem C36_circle2 :
  forall (M : R) (a b c d e f g h i x y z : R) (l : vec R 4) (dbg : bool) (k : circle2 (RS M)),
    let A : vec (vec R 2) 2 := ((a, (b, tt)), ((d, (e, tt)), tt)) in
    let T : vec R 2 := (x, (y, tt)) in
    rigid (affine A T) -> 0 <= c2_radius k ->
    exists k', transform_circle2 dbg k
        (hmat_of ((a, (b, (c, tt))), ((d, (e, (f, tt))), ((g, (h, (i, tt))), tt))) (x, (y, (z, tt))) l) = Ok k' /\
      is_image (affine A T) (on_sphere (c2_origin k) (c2_radius k)) (on_sphere (c2_origin k') (c2_radius k')).
Proof.
  intros M a b c d e f g h i x y z l dbg [o r] A T H Hr. destruct o as (u & v & []).
  unfold transform_circle2. cbn [c2_origin c2_radius] in *. rewrite transform_vec3_R.
  unfold circle2_make. rewrite geo_assert_true by (apply Rleb_true, Hr). cbn [bind].
  eexists. split; [reflexivity|]. cbn [c2_origin c2_radius].
  pose proof (circle2_image A T (u, (v, tt)) r H) as K.
  assert (E : affine A T (u, (v, tt)) = (a * u + (b * v + 0) + x, (d * u + (e * v + 0) + y, tt))) by reflexivity.
  rewrite E in K. cbn.
  replace (a * u + (b * v + (c * 0 + 0)) + x) with (a * u + (b * v + 0) + x) by ring.
  replace (d * u + (e * v + (f * 0 + 0)) + y) with (d * u + (e * v + 0) + y) by ring.
  exact K.
Qed.
Print Assumptions C36_circle2.

(** a concrete motion, and shapes it moves *)
Example C36_example :
  rigid (affine rotA rotT) /\
  transform_sphere (@mkSphere (RS 1) (1, (0, (0, tt))) 2) (hmat_of rotA rotT row4) = mkSphere (1, (3, (3, tt))) 2 /\
  rigid (affine (((0, (-1, tt)), ((1, (0, tt)), tt)) : vec (vec R 2) 2) (5, (7, tt))).
Proof.
  split; [apply rotA_rigid|]. split.
  - unfold transform_sphere. cbn [s_origin s_radius]. f_equal. cbn. repeat (apply f_equal2; [lra|]). reflexivity.
  - intros (p & q & []) (u & v & []). unfold rdist, rnorm. apply (f_equal sqrt). cbn. ring.
Qed.

(** C36 is false for circles in space: the normal is not transformed.  Rotating
    a circle about an axis in its plane moves points of the circle off the
    transformed circle. *)
Theorem C36_circle3_refuted :
  forall (M : R), exists (A : vec (vec R 3) 3) (t : vec R 3) (l : vec R 4) (c : circle3 (RS M)) (p : vec R 3),
    rigid (affine A t) /\ 0 < c3_radius c /\ rnorm (c3_normal c : vec R 3) = 1 /\
    on_circle (c3_origin c) (c3_radius c) (c3_normal c) p /\
    let c' := transform_circle3 c (hmat_of A t l) in
    ~ on_circle (c3_origin c') (c3_radius c') (c3_normal c') (affine A t p).
Proof.
  intros M. exists rotX, rzero, row4, (@mkCircle3 (RS M) rzero 1 (0, (0, (1, tt)))), (0, (1, (0, tt))).
  split; [apply rotX_rigid|]. cbn [c3_radius c3_origin c3_normal]. split; [lra|].
  split; [transitivity (sqrt 1); [apply (f_equal sqrt); cbn; ring|apply sqrt_1]|].
  split.
  - split; [transitivity (sqrt 1); [apply (f_equal sqrt); cbn; ring|apply sqrt_1]|cbn; ring].
  - intros [_ H]. unfold transform_circle3 in H. cbn in H. lra.
Qed.
Print Assumptions C36_circle3_refuted.

(** what holds of circles in space: the motion must keep the direction of the
    normal (for instance a translation, or a rotation about it) *)
Theorem C36_circle3_partial :
  forall (M : R) (A : vec (vec R 3) 3) (t : vec R 3) (l : vec R 4) (c : circle3 (RS M)) (k : R),
    rigid (affine A t) -> k * k = 1 ->
    rsub (affine A t (c3_normal c)) (affine A t rzero) = rscale k (c3_normal c) ->
    let c' := transform_circle3 c (hmat_of A t l) in
    is_image (affine A t) (on_circle (c3_origin c) (c3_radius c) (c3_normal c))
      (on_circle (c3_origin c') (c3_radius c') (c3_normal c')).
Proof.
  intros M A t l [o r n] k H Hk Hn. unfold transform_circle3. cbn [c3_radius c3_origin c3_normal] in *.
  pose proof (transform_vec3_R M A t l o) as E. rewrite E. exact (circle3_image A t o n r k H Hk Hn).
Qed.
Print Assumptions C36_circle3_partial.

Example C36_circle3_example :
  rigid (affine rotA rotT) /\ 1 * 1 = 1 /\
  rsub (affine rotA rotT (0, (0, (1, tt)))) (affine rotA rotT rzero) = rscale 1 ((0, (0, (1, tt))) : vec R 3).
Proof. split; [apply rotA_rigid|]. split; [ring|]. cbn. repeat (apply f_equal2; [ring|]). reflexivity. Qed.

(** C36 is false beyond rigid motions: under a map that scales all distances by
    [k <> 1] (in particular a uniform scaling) no point of a sphere of positive
    radius is mapped to the transformed sphere, whose radius is kept. *)
Theorem C36_sphere_scaling_refuted :
  forall (M : R) (A : vec (vec R 3) 3) (t : vec R 3) (l : vec R 4) (k : R) (s : sphere (RS M)),
    (forall p q, rdist (affine A t p) (affine A t q) = k * rdist p q) -> k <> 1 -> 0 < s_radius s ->
    let s' := transform_sphere s (hmat_of A t l) in
    forall p, on_sphere (s_origin s) (s_radius s) p -> ~ on_sphere (s_origin s') (s_radius s') (affine A t p).
Proof.
  intros M A t l k [c r] H Hk Hr. unfold transform_sphere. cbn [s_origin s_radius] in *.
  intros p Hp Hq. pose proof (transform_vec3_R M A t l c) as E. rewrite E in Hq.
  unfold on_sphere in *. rewrite H, Hp in Hq. apply Hk. apply Rmult_eq_reg_r with r; lra.
Qed.
Print Assumptions C36_sphere_scaling_refuted.

Example C36_scaling_example :
  let A : vec (vec R 3) 3 := ((2, (0, (0, tt))), ((0, (2, (0, tt))), ((0, (0, (2, tt))), tt))) in
  (forall p q, rdist (affine A rotT p) (affine A rotT q) = 2 * rdist p q) /\ 2 <> 1.
Proof.
  split; [|lra]. intros p q. unfold rdist. rewrite affine_sub.
  replace (vmap _ _) with (rscale 2 (rsub p q)).
  - rewrite rnorm_scale, Rabs_pos_eq by lra. reflexivity.
  - destruct p as (a & b & c & []), q as (x & y & z & []). cbn. repeat (apply f_equal2; [ring|]). reflexivity.
Qed.

(** C37: exactly the matrices whose linear part has no negative entry map every
    box into the transformed box (release build; D = 3). *)
Theorem C37_aabb_characterised :
  forall (M : R) (L : Linal (RS M)) (A : vec (vec R 3) 3) (t : vec R 3) (l : vec R 4),
    (forall i j, (i < 3)%nat -> (j < 3)%nat -> 0 <= comp j (vnth rzero i A)) <->
    (forall b : aabb (RS M) 3, (forall i, (i < 3)%nat -> comp i (a_min b) < comp i (a_max b)) ->
       exists b', transform_aabb L false b (hmat_of A t l) = Ok b' /\
         forall x, in_box (a_min b) (a_max b) x -> in_box (a_min b') (a_max b') (affine A t x)).
Proof.
  intros M L A t l.
  assert (E : forall b : aabb (RS M) 3, transform_aabb L false b (hmat_of A t l) =
                Ok (@mkAABB (RS M) 3 (affine A t (a_min b)) (affine A t (a_max b)))).
  { intros b. unfold transform_aabb, aabb_make. rewrite geo_assert_off. cbn [bind].
    pose proof (transform_vec3_R M A t l (a_min b)) as E1. pose proof (transform_vec3_R M A t l (a_max b)) as E2.
    unfold transform_vec in E1, E2. rewrite E1, E2. reflexivity. }
  split.
  - intros HA b Hb. rewrite E. eexists. split; [reflexivity|]. cbn [a_min a_max]. intros x Hx.
    apply box_nonneg_matrix; assumption.
  - intros H i j Hi Hj. destruct (Rle_lt_dec 0 (comp j (vnth rzero i A))) as [H0|H0]; [exact H0|exfalso].
    destruct (box_negative_entry A t i j Hi Hj H0) as (lo & hi & x & Hlh & Hx & Hn).
    destruct (H (@mkAABB (RS M) 3 lo hi) Hlh) as (b' & E' & Hb'). rewrite E in E'. injection E' as <-.
    cbn [a_min a_max] in *. apply Hn, Hb', Hx.
Qed.
Print Assumptions C37_aabb_characterised.

(** the same for D = 2 *)
Theorem C37_aabb2_characterised :
  forall (M : R) (L : Linal (RS M)) (a b c d e f g h i x y z : R) (l : vec R 4),
    let A : vec (vec R 2) 2 := ((a, (b, tt)), ((d, (e, tt)), tt)) in
    let T : vec R 2 := (x, (y, tt)) in
    (0 <= a /\ 0 <= b /\ 0 <= d /\ 0 <= e) <->
    (forall k : aabb (RS M) 2, (forall i, (i < 2)%nat -> comp i (a_min k) < comp i (a_max k)) ->
       exists k', transform_aabb L false k
           (hmat_of ((a, (b, (c, tt))), ((d, (e, (f, tt))), ((g, (h, (i, tt))), tt))) (x, (y, (z, tt))) l) = Ok k' /\
         forall p, in_box (a_min k) (a_max k) p -> in_box (a_min k') (a_max k') (affine A T p)).
Proof.
  intros M L a b c d e f g h i x y z l A T.
  set (B := ((a, (b, (c, tt))), ((d, (e, (f, tt))), ((g, (h, (i, tt))), tt))) : vec (vec R 3) 3).
  set (T3 := (x, (y, (z, tt))) : vec R 3).
  assert (E : forall k : aabb (RS M) 2, transform_aabb L false k (hmat_of B T3 l) =
                Ok (@mkAABB (RS M) 2 (affine A T (a_min k)) (affine A T (a_max k)))).
  { intros k. unfold transform_aabb, aabb_make. rewrite geo_assert_off. cbn [bind].
    pose proof (transform_vec2_R M B T3 l (a_min k)) as E1. pose proof (transform_vec2_R M B T3 l (a_max k)) as E2.
    unfold transform_vec in E1, E2. rewrite E1, E2. reflexivity. }
  split.
  - intros (Ha & Hb & Hd & He) k Hk. rewrite E. eexists. split; [reflexivity|]. cbn [a_min a_max]. intros p Hp.
    apply box_nonneg_matrix; [|assumption].
    intros u v Hu Hv. unfold comp. destruct u as [|[|u]]; try lia; destruct v as [|[|v]]; try lia; assumption.
  - intros H.
    assert (K : forall u v, (u < 2)%nat -> (v < 2)%nat -> 0 <= comp v (vnth rzero u A)).
    { intros u v Hu Hv. destruct (Rle_lt_dec 0 (comp v (vnth rzero u A))) as [H0|H0]; [exact H0|exfalso].
      destruct (box_negative_entry A T u v Hu Hv H0) as (lo & hi & p & Hlh & Hp & Hn).
      destruct (H (@mkAABB (RS M) 2 lo hi) Hlh) as (b' & E' & Hb'). rewrite E in E'. injection E' as <-.
      cbn [a_min a_max] in *. apply Hn, Hb', Hp. }
    split; [exact (K 0 0 ltac:(lia) ltac:(lia))%nat|]. split; [exact (K 0 1 ltac:(lia) ltac:(lia))%nat|].
    split; [exact (K 1 0 ltac:(lia) ltac:(lia))%nat|exact (K 1 1 ltac:(lia) ltac:(lia))%nat].
Qed.
Print Assumptions C37_aabb2_characterised.

(** C37 is false: some rigid motion moves a point of a box out of the transformed
    box. *)
Theorem C37_aabb_refuted :
  forall (M : R) (L : Linal (RS M)), exists (A : vec (vec R 3) 3) (t : vec R 3) (l : vec R 4) (b b' : aabb (RS M) 3) (x : vec R 3),
    rigid (affine A t) /\ (forall i, (i < 3)%nat -> comp i (a_min b) < comp i (a_max b)) /\
    transform_aabb L false b (hmat_of A t l) = Ok b' /\
    in_box (a_min b) (a_max b) x /\ ~ in_box (a_min b') (a_max b') (affine A t x).
Proof.
  intros M L.
  exists rotA, rotT, row4, (@mkAABB (RS M) 3 (0, (0, (0, tt))) (1, (1, (1, tt)))).
  eexists. exists (1, (1, (1, tt))).
  split; [apply rotA_rigid|]. cbn [a_min a_max].
  split. { intros i Hi. unfold comp. destruct i as [|[|[|i]]]; cbn; try lra; lia. }
  split. { unfold transform_aabb, aabb_make. rewrite geo_assert_off. cbn [bind]. reflexivity. }
  split. { intros i Hi. unfold comp. destruct i as [|[|[|i]]]; cbn; try lra; lia. }
  cbn [a_min a_max]. intros H. specialize (H 0%nat ltac:(lia)). unfold comp in H. cbn in H. lra.
Qed.
Print Assumptions C37_aabb_refuted.

(** In a debug build such a box does not even pass the constructor: rotating a
    box with sides longer than the tolerance traps. *)
Theorem C37_aabb_debug_refuted :
  forall (M : R) (L : Linal (RS M)) (b : aabb (RS M) 3), LinalR L ->
    comp 1 (a_min b) <= comp 1 (a_max b) ->
    transform_aabb L true b (hmat_of rotA rotT row4) = Trap.
Proof.
  intros M L [lo hi] HL H. unfold transform_aabb, aabb_make. cbn [a_min a_max] in *.
  pose proof (transform_vec3_R M rotA rotT row4 lo) as E1. pose proof (transform_vec3_R M rotA rotT row4 hi) as E2.
  unfold transform_vec in E1, E2. rewrite E1, E2.
  replace (aabb_is_valid L _) with false; [reflexivity|].
  symmetry. unfold aabb_is_valid. apply negb_false_iff. cbn [a_min a_max].
  apply (vex2_true 0 0). exists 0%nat. split; [lia|].
  apply (lr_greatereq_0 _ HL); [apply (lr_eps _ HL)|].
  destruct lo as (a & b & c & []), hi as (x & y & z & []). unfold comp in H. cbn in H |- *. lra.
Qed.
Print Assumptions C37_aabb_debug_refuted.

Example C37_example :
  LinalR (tol_linal (RS 1) (1 / 100)) /\ comp 1 ((0, (0, (0, tt))) : vec R 3) <= comp 1 ((1, (1, (1, tt))) : vec R 3).
Proof. split; [apply tol_linal_R; lra|]. unfold comp; cbn; lra. Qed.

(** a translation meets the condition of the characterisation *)
Example C37_translation_example :
  let A : vec (vec R 3) 3 := ((1, (0, (0, tt))), ((0, (1, (0, tt))), ((0, (0, (1, tt))), tt))) in
  forall i j, (i < 3)%nat -> (j < 3)%nat -> 0 <= comp j (vnth rzero i A).
Proof.
  intros A i j Hi Hj. unfold comp. destruct i as [|[|[|i]]]; try lia; destruct j as [|[|[|j]]]; try lia; cbn; lra.
Qed.
