(** * Property theorems: the tessellations are convex and fit their shapes (C63) *)

From Coq Require Import List Arith Bool Lia Reals Lra.
From Verif Require Import Scalar Linal Result SpecReal VecR VecLemmas SpecKdTree ModelShapes ModelTransform SpecTransform
  ModelMesh SpecMesh ModelTess SpecTess SpecConvex ProofTessComb ProofTessSphere ProofTessRound ProofTess ProofTessCuboid ProofTessRot ProofVolume
  ProofConvex ProofConvexOut PropTess.
Import ListNotations.
Local Open Scope R_scope.

(** ** C63 *)

(** The sphere: no point of the mesh lies in front of a facet; the solid bounded
    by the facets lies between the ball and a ball that is smaller by a factor
    tending to 1. *)
Theorem C63_sphere_convex :
  forall (M : R) (L : Linal (RS M)) W meq dbg self SZ (p a : nat) (o0 o : vec R 3) (r : R) (m : mesh (RS M)),
    (2 <= p)%nat -> (3 <= a)%nat -> (6 * a * (p - 1) < W)%nat -> 0 < r ->
    veq_on L ((fun q => sphere_grid p a o r q \/ q = o \/ q = rzero) : vec (RS M) 3 -> Prop) ->
    mb_sphere L W meq dbg self SZ p a o0 (@mkSphere (RS M) o r) = Ok m ->
    (forall q, In q (m_points m) -> enclosed m q) /\
    (forall q, rdist q o <= r * cos (PI / INR p / 2) * cos (PI / INR a) -> enclosed m q) /\
    (forall q, enclosed m q -> rdist q o <= r).
Proof.
  intros M L W meq dbg self SZ p a o0 o r m Hp Ha HW Hr HG E.
  destruct (sphere_mesh M L W meq dbg self SZ p a o0 o r Hp Ha HW Hr HG) as (m' & E' & H).
  rewrite E in E'. apply Ok_inj in E'. subst m'. split; [|split].
  - intros q Hq. apply H in Hq as (v & Hv & ->). refine (good_facets M W dbg self _ _ _ _ m (fun q0 q1 q2 => behind q0 q1 q2 _) H _).
    intros x y z Hin. unfold behind. rewrite behind_sixvol. apply (sphere_vertex_side p a Hp Ha o r Hr); assumption.
  - intros q Hq. refine (good_facets M W dbg self _ _ _ _ m (fun q0 q1 q2 => behind q0 q1 q2 q) H _).
    intros x y z Hin. unfold behind. rewrite behind_sixvol. apply (sphere_ball_side p a Hp Ha o r Hr); assumption.
  - intros q Hq. apply (sphere_inside p a Hp Ha o r Hr). intros x y z Hin.
    exact (good_facet_of M W dbg self _ _ _ _ m x y z q H Hin Hq).
Qed.
Print Assumptions C63_sphere_convex.

(** The cone and the cylinder: the same, with the shapes over the inscribed and the
    circumscribed circle of the polygon. *)
Theorem C63_cone_convex :
  forall (M : R) (L : Linal (RS M)) W meq rot_align dbg self SZ (s : segment (RS M) 3) (r : R) (A : vec (vec R 3) 3) (a : nat) (m : mesh (RS M)),
    let src := g_source s : vec R 3 in
    let tgt := g_target s : vec R 3 in
    LinalR L -> (3 <= a)%nat -> (6 * a < W)%nat -> 0 < r -> 0 < rdist tgt src -> (dbg = true -> leps L < rdist tgt src) ->
    aligned rot_align meq s A ->
    veq_on L ((fun q => q = src \/ q = tgt \/ rim a A src r q) : vec (RS M) 3 -> Prop) ->
    mb_cone L W meq dbg self SZ rot_align a (@mkCone (RS M) s r) = Ok (Some m) ->
    (forall q, In q (m_points m) -> enclosed m q) /\
    (forall q, solid_cone src tgt (r * cos (PI / INR a)) q -> enclosed m q) /\
    (forall q, enclosed m q -> solid_cone src tgt r q).
Proof.
  intros M L W meq rot_align dbg self SZ s r A a m src tgt HL Ha HW Hr Hl Hd Hal HG E.
  destruct (cone_mesh M L HL W meq rot_align dbg self SZ s r A a Ha Hr Hl Hal HW Hd HG) as (m' & E' & H).
  rewrite E in E'. injection E' as <-. destruct Hal as [HA _]. pose proof HA as (Hrig & Hdet & _).
  pose proof (half_range a Ha) as [_ Hc]. split; [|split].
  - intros q Hq. apply H in Hq as (v & Hv & ->). refine (good_facets M W dbg self _ _ _ _ m (fun q0 q1 q2 => behind q0 q1 q2 _) H _).
    intros x y z Hin. unfold behind, kworld. rewrite behind_sixvol, sixvol_affine.
    apply Rmult_le_pos; [lra|]. apply (cone_vertex_side a Ha _ _ Hr Hl); assumption.
  - intros q Hq. destruct (linear_surj A src q Hrig Hdet) as ((x & y & z & []) & ->).
    apply (solid_cone_local M s A HA Hl) in Hq; [|apply Rmult_le_pos; lra].
    refine (good_facets M W dbg self _ _ _ _ m (fun q0 q1 q2 => behind q0 q1 q2 _) H _).
    intros u v w Hin. unfold behind, kworld. rewrite behind_sixvol, sixvol_affine.
    apply Rmult_le_pos; [lra|]. apply (cone_inner_side a Ha _ _ Hr Hl); assumption.
  - intros q Hq. destruct (linear_surj A src q Hrig Hdet) as ((x & y & z & []) & ->).
    apply (solid_cone_local M s A HA Hl); [lra|]. apply (cone_inside a Ha r _ Hr Hl). intros u v w Hin.
    pose proof (good_facet_of M W dbg self _ _ _ _ m u v w _ H Hin Hq) as K. unfold kworld in K. rewrite sixvol_affine in K.
    apply Rmult_le_reg_l with (det3 A); [exact Hdet|]. rewrite Rmult_0_r. exact K.
Qed.
Print Assumptions C63_cone_convex.

Theorem C63_cylinder_convex :
  forall (M : R) (L : Linal (RS M)) W meq rot_align dbg self SZ (s : segment (RS M) 3) (r : R) (A : vec (vec R 3) 3) (a : nat) (m : mesh (RS M)),
    let src := g_source s : vec R 3 in
    let tgt := g_target s : vec R 3 in
    (3 <= a)%nat -> (12 * a < W)%nat -> 0 < r -> 0 < rdist tgt src ->
    aligned rot_align meq s A ->
    veq_on L ((fun q => q = src \/ q = tgt \/ rim a A src r q \/ rim a A tgt r q) : vec (RS M) 3 -> Prop) ->
    mb_cylinder L W meq dbg self SZ rot_align a (@mkCylinder (RS M) s r) = Ok (Some m) ->
    (forall q, In q (m_points m) -> enclosed m q) /\
    (forall q, solid_cylinder src tgt (r * cos (PI / INR a)) q -> enclosed m q) /\
    (forall q, enclosed m q -> solid_cylinder src tgt r q).
Proof.
  intros M L W meq rot_align dbg self SZ s r A a m src tgt Ha HW Hr Hl Hal HG E.
  destruct (cylinder_mesh M L W meq rot_align dbg self SZ s r A a Ha Hr Hl Hal HW HG) as (m' & E' & H).
  rewrite E in E'. injection E' as <-. destruct Hal as [HA _]. pose proof HA as (Hrig & Hdet & _).
  pose proof (half_range a Ha) as [_ Hc]. split; [|split].
  - intros q Hq. apply H in Hq as (v & Hv & ->). refine (good_facets M W dbg self _ _ _ _ m (fun q0 q1 q2 => behind q0 q1 q2 _) H _).
    intros x y z Hin. unfold behind, yworld. rewrite behind_sixvol, sixvol_affine.
    apply Rmult_le_pos; [lra|]. apply (cylinder_vertex_side a Ha _ _ Hr Hl); assumption.
  - intros q Hq. destruct (linear_surj A src q Hrig Hdet) as ((x & y & z & []) & ->).
    apply (solid_cylinder_local M s A HA Hl) in Hq; [|apply Rmult_le_pos; lra].
    refine (good_facets M W dbg self _ _ _ _ m (fun q0 q1 q2 => behind q0 q1 q2 _) H _).
    intros u v w Hin. unfold behind, yworld. rewrite behind_sixvol, sixvol_affine.
    apply Rmult_le_pos; [lra|]. apply (cylinder_inner_side a Ha _ _ Hr Hl); assumption.
  - intros q Hq. destruct (linear_surj A src q Hrig Hdet) as ((x & y & z & []) & ->).
    apply (solid_cylinder_local M s A HA Hl); [lra|]. apply (cylinder_inside a Ha r _ Hr Hl). intros u v w Hin.
    pose proof (good_facet_of M W dbg self _ _ _ _ m u v w _ H Hin Hq) as K. unfold yworld in K. rewrite sixvol_affine in K.
    apply Rmult_le_reg_l with (det3 A); [exact Hdet|]. rewrite Rmult_0_r. exact K.
Qed.
Print Assumptions C63_cylinder_convex.

(** The cuboid with right-handed sides: exactly the solid; with left-handed sides
    the solid lies in front of all facets. *)
Theorem C63_cuboid_convex :
  forall (M : R) (L : Linal (RS M)) W dbg self SZ (o0 d0 o x y z : vec R 3) (m : mesh (RS M)),
    (36 < W)%nat -> 0 < rdot (rcross x y) z ->
    veq_on L (cuboid_corner o x y z : vec (RS M) 3 -> Prop) ->
    mb_cuboid L W dbg self SZ o0 d0 (@mkCuboid (RS M) o x y z) = Ok m ->
    forall q, enclosed m q <-> solid_cuboid o x y z q.
Proof.
  intros M L W dbg self SZ o0 d0 o x y z m HW Hd HG E q.
  destruct (cuboid_good M L W dbg self SZ o x y z HW ltac:(lra) HG) as (m' & E' & H).
  unfold mb_cuboid, cb_build, cb_set_cuboid in E. cbn [cb_cube] in E. rewrite E' in E. cbn [bind] in E. apply Ok_inj in E. subst m'. split.
  - intros Hq. destruct (cuboid_coordinates o x y z q ltac:(lra)) as (a & b & c & ->). exists a, b, c.
    assert (K : forall w, In w [a; 1 - a; b; 1 - b; c; 1 - c] -> 0 <= w).
    { intros w Hw. destruct (btri_each o x y z a b c w Hw) as (i & j & k & Hin & Ev).
      pose proof (good_facet_of M W dbg self _ _ _ _ m i j k _ H Hin Hq) as K. rewrite Ev in K.
      apply Rmult_le_reg_r with (rdot (rcross x y) z); [exact Hd|]. rewrite Rmult_0_l. exact K. }
    pose proof (K a ltac:(cbn; auto 9)). pose proof (K (1 - a) ltac:(cbn; auto 9)). pose proof (K b ltac:(cbn; auto 9)).
    pose proof (K (1 - b) ltac:(cbn; auto 9)). pose proof (K c ltac:(cbn; auto 9)). pose proof (K (1 - c) ltac:(cbn; auto 9)).
    repeat split; lra.
  - intros (a & b & c & Ha & Hb & Hc & ->). refine (good_facets M W dbg self _ _ _ _ m (fun q0 q1 q2 => behind q0 q1 q2 _) H _).
    intros i j k Hin. unfold behind. rewrite behind_sixvol. destruct (btri_side o x y z a b c i j k Ha Hb Hc Hin) as (w & Hw & ->).
    apply Rmult_le_pos; lra.
Qed.
Print Assumptions C63_cuboid_convex.

Theorem C63_cuboid_left_handed :
  forall (M : R) (L : Linal (RS M)) W dbg self SZ (o0 d0 o x y z : vec R 3) (m : mesh (RS M)),
    (36 < W)%nat -> rdot (rcross x y) z < 0 ->
    veq_on L (cuboid_corner o x y z : vec (RS M) 3 -> Prop) ->
    mb_cuboid L W dbg self SZ o0 d0 (@mkCuboid (RS M) o x y z) = Ok m ->
    (forall q, excluded m q <-> solid_cuboid o x y z q) /\ (forall q, ~ enclosed m q).
Proof.
  intros M L W dbg self SZ o0 d0 o x y z m HW Hd HG E.
  destruct (cuboid_good M L W dbg self SZ o x y z HW ltac:(lra) HG) as (m' & E' & H).
  unfold mb_cuboid, cb_build, cb_set_cuboid in E. cbn [cb_cube] in E. rewrite E' in E. cbn [bind] in E. apply Ok_inj in E. subst m'. split.
  - intros q. split.
    + intros Hq. destruct (cuboid_coordinates o x y z q ltac:(lra)) as (a & b & c & ->). exists a, b, c.
      assert (K : forall w, In w [a; 1 - a; b; 1 - b; c; 1 - c] -> 0 <= w).
      { intros w Hw. destruct (btri_each o x y z a b c w Hw) as (i & j & k & Hin & Ev).
        pose proof H as (_ & _ & _ & _ & _ & _ & _ & _ & _ & _ & _ & Ht & _).
        assert (K : In (Some (bpos o x y z k, bpos o x y z j, bpos o x y z i)) (map (facet_triangle m) (m_facets m))).
        { rewrite Ht. apply in_map. unfold ProofTessMesh.solid_triangles. rewrite map_map. apply in_map_iff. exists (i, j, k). split; [reflexivity|exact Hin]. }
        apply in_map_iff in K as (f & Ef & Hf). destruct (Hq f Hf) as (q0 & q1 & q2 & Ef' & B). rewrite Ef in Ef'. injection Ef' as <- <- <-.
        unfold in_front in B. rewrite behind_sixvol, Ev in B.
        apply Rmult_le_reg_r with (- rdot (rcross x y) z); [lra|]. lra. }
      pose proof (K a ltac:(cbn; auto 9)). pose proof (K (1 - a) ltac:(cbn; auto 9)). pose proof (K b ltac:(cbn; auto 9)).
      pose proof (K (1 - b) ltac:(cbn; auto 9)). pose proof (K c ltac:(cbn; auto 9)). pose proof (K (1 - c) ltac:(cbn; auto 9)).
      repeat split; lra.
    + intros (a & b & c & Ha & Hb & Hc & ->). refine (good_facets M W dbg self _ _ _ _ m (fun q0 q1 q2 => in_front q0 q1 q2 _) H _).
      intros i j k Hin. unfold in_front. rewrite behind_sixvol. destruct (btri_side o x y z a b c i j k Ha Hb Hc Hin) as (w & Hw & ->). nra.
  - intros q Hq. destruct (cuboid_coordinates o x y z q ltac:(lra)) as (a & b & c & ->).
    assert (K : forall w, In w [a; 1 - a; b; 1 - b; c; 1 - c] -> w <= 0).
    { intros w Hw. destruct (btri_each o x y z a b c w Hw) as (i & j & k & Hin & Ev).
      pose proof (good_facet_of M W dbg self _ _ _ _ m i j k _ H Hin Hq) as K. rewrite Ev in K.
      apply Rmult_le_reg_r with (- rdot (rcross x y) z); [lra|]. lra. }
    pose proof (K a ltac:(cbn; auto 9)). pose proof (K (1 - a) ltac:(cbn; auto 9)). lra.
Qed.
Print Assumptions C63_cuboid_left_handed.

(** non-vacuity: the octahedron contains the ball of half its radius, but not a
    point at twice its radius *)
Example C63_example :
  exists m, mb_sphere xL 256 meq_exact true 7%nat 256 2 4 rzero (@mkSphere (RS 1) rzero 1) = Ok m /\
    (forall q, rdist q rzero <= 1 / 2 -> enclosed m q) /\
    ~ enclosed m (0, (0, (2, tt))).
Proof.
  assert (Hw : (6 * 4 * (2 - 1) < 256)%nat) by lia.
  destruct (C32_sphere_mesh 1 xL 256 meq_exact true 7%nat 256 2 4 rzero rzero 1 ltac:(lia) ltac:(lia) Hw ltac:(lra) (xL_on _)) as (m & E & _).
  destruct (C63_sphere_convex 1 xL 256 meq_exact true 7%nat 256 2 4 rzero rzero 1 m ltac:(lia) ltac:(lia) Hw ltac:(lra) (xL_on _) E) as (_ & K & K').
  exists m. split; [exact E|]. split.
  - intros q Hq. apply K. replace (PI / INR 2 / 2) with (PI / 4) by (cbn; field). replace (PI / INR 4) with (PI / 4) by (cbn; field).
    rewrite cos_PI4. pose proof sqrt2_neq_0. assert (S2 : sqrt 2 * sqrt 2 = 2) by (apply sqrt_def; lra).
    replace (1 * (1 / sqrt 2) * (1 / sqrt 2)) with (1 / (sqrt 2 * sqrt 2)) by (field; assumption). rewrite S2. lra.
  - intros H. apply K' in H. unfold rdist, rnorm in H.
    replace (rdot _ _) with (2 * 2) in H by (unfold rzero; cbn; ring). rewrite sqrt_square in H; lra.
Qed.
