(** * Property theorems: the volume enclosed by the tessellations (C62) *)

From Coq Require Import List Arith Bool Lia Reals Lra.
From Verif Require Import Scalar Linal Result SpecReal VecR VecLemmas SpecKdTree ModelShapes ModelTransform SpecTransform
  ModelMesh SpecMesh ModelTess SpecTess ProofTessComb ProofTessSphere ProofTessRound ProofTess ProofTessCuboid ProofTessRot ProofVolume PropTess.
Import ListNotations.
Local Open Scope R_scope.

(** ** C62 *)

(** The sphere: the volume is that of the inscribed polyhedron whatever point it
    is measured from, lies below the volume of the ball, and misses it by a factor
    that tends to 1 as the counts grow. *)
Theorem C62_sphere_volume :
  forall (M : R) (L : Linal (RS M)) W meq dbg self SZ (p a : nat) (o0 o : vec R 3) (r : R) (m : mesh (RS M)) (c : vec R 3),
    (2 <= p)%nat -> (3 <= a)%nat -> (6 * a * (p - 1) < W)%nat -> 0 < r ->
    veq_on L ((fun q => sphere_grid p a o r q \/ q = o \/ q = rzero) : vec (RS M) 3 -> Prop) ->
    mb_sphere L W meq dbg self SZ p a o0 (@mkSphere (RS M) o r) = Ok m ->
    let d := 2 * PI / INR a in
    let e := PI / INR p in
    let ball := 4 / 3 * PI * (r * r * r) in
    volume c m = INR a / 3 * sin d * (1 + cos e) * (r * r * r) /\
    0 < (1 - d * d / 6) * (1 - e * e / 4) /\
    (1 - d * d / 6) * (1 - e * e / 4) * ball <= volume c m < ball.
Proof.
  intros M L W meq dbg self SZ p a o0 o r m c Hp Ha HW Hr HG E d e ball.
  destruct (sphere_mesh M L W meq dbg self SZ p a o0 o r Hp Ha HW Hr HG) as (m' & E' & H).
  rewrite E in E'. apply Ok_inj in E'. subst m'.
  assert (V : volume c m = INR a / 3 * sin d * (1 + cos e) * (r * r * r)).
  { rewrite (good_volume M W dbg self _ _ _ _ m c o H (ctri_closed p a Hp Ha)), (sphere_solid6 p a Hp Ha). fold d e. field. }
  destruct (ngon_bounds a Ha) as ((B1 & B2) & B3 & B4). fold d in B1, B2, B3, B4.
  destruct (polar_bounds p Hp) as ((P1 & P2) & P3 & P4). fold e in P1, P2, P3, P4.
  assert (R3 : 0 < r * r * r / 3) by (assert (0 < r * r * r) by (repeat apply Rmult_lt_0_compat; assumption); lra).
  pose proof PI_RGT_0 as P0.
  split; [exact V|]. split; [apply Rmult_lt_0_compat; lra|]. rewrite V. unfold ball. split.
  - replace (_ * (4 / 3 * PI * (r * r * r))) with ((r * r * r / 3) * ((2 * PI * (1 - d * d / 6)) * (2 - e * e / 2))) by field.
    replace (INR a / 3 * _ * _ * _) with ((r * r * r / 3) * ((INR a * sin d) * (1 + cos e))) by field.
    apply Rmult_le_compat_l; [lra|]. apply Rmult_le_compat; try lra. apply Rmult_le_pos; lra.
  - replace (4 / 3 * PI * (r * r * r)) with ((r * r * r / 3) * (2 * PI * 2)) by field.
    replace (INR a / 3 * _ * _ * _) with ((r * r * r / 3) * ((INR a * sin d) * (1 + cos e))) by field.
    apply Rmult_lt_compat_l; [lra|]. apply Rmult_gt_0_lt_compat; lra.
Qed.
Print Assumptions C62_sphere_volume.

(** The cone: a third of the polygon times the height. *)
Theorem C62_cone_volume :
  forall (M : R) (L : Linal (RS M)) W meq rot_align dbg self SZ (s : segment (RS M) 3) (r : R) (A : vec (vec R 3) 3) (a : nat)
         (m : mesh (RS M)) (c : vec R 3),
    let src := g_source s : vec R 3 in
    let tgt := g_target s : vec R 3 in
    LinalR L -> (3 <= a)%nat -> (6 * a < W)%nat -> 0 < r -> 0 < rdist tgt src -> (dbg = true -> leps L < rdist tgt src) ->
    aligned rot_align meq s A ->
    veq_on L ((fun q => q = src \/ q = tgt \/ rim a A src r q) : vec (RS M) 3 -> Prop) ->
    mb_cone L W meq dbg self SZ rot_align a (@mkCone (RS M) s r) = Ok (Some m) ->
    let d := 2 * PI / INR a in
    let full := PI * (r * r) * rdist tgt src / 3 in
    volume c m = INR a / 2 * sin d * (r * r) * rdist tgt src / 3 /\
    0 < 1 - d * d / 6 /\ (1 - d * d / 6) * full <= volume c m < full.
Proof.
  intros M L W meq rot_align dbg self SZ s r A a m c src tgt HL Ha HW Hr Hl Hd Hal HG E d full.
  destruct (cone_mesh M L HL W meq rot_align dbg self SZ s r A a Ha Hr Hl Hal HW Hd HG) as (m' & E' & H).
  rewrite E in E'. injection E' as <-.
  assert (V : volume c m = INR a / 2 * sin d * (r * r) * rdist tgt src / 3).
  { rewrite (good_volume M W dbg self _ _ _ _ m c (affine A src rzero) H (ktri_closed a Ha)). unfold kworld.
    rewrite solid6_affine, (cone_solid6 a Ha), (rigid_det A) by apply Hal. fold d src tgt. field. }
  destruct (ngon_bounds a Ha) as ((B1 & B2) & B3 & B4). fold d in B1, B2, B3, B4.
  assert (Q : 0 < r * r * rdist tgt src / 6) by (assert (0 < r * r * rdist tgt src) by (repeat apply Rmult_lt_0_compat; assumption); lra).
  split; [exact V|]. split; [exact B4|]. rewrite V. unfold full.
  replace (INR a / 2 * _ * _ * _ / _) with ((r * r * rdist tgt src / 6) * (INR a * sin d)) by field.
  replace (PI * (r * r) * rdist tgt src / 3) with ((r * r * rdist tgt src / 6) * (2 * PI)) by field. split.
  - replace ((1 - d * d / 6) * _) with ((r * r * rdist tgt src / 6) * (2 * PI * (1 - d * d / 6))) by field. apply Rmult_le_compat_l; lra.
  - apply Rmult_lt_compat_l; lra.
Qed.
Print Assumptions C62_cone_volume.

Theorem C62_cylinder_volume :
  forall (M : R) (L : Linal (RS M)) W meq rot_align dbg self SZ (s : segment (RS M) 3) (r : R) (A : vec (vec R 3) 3) (a : nat)
         (m : mesh (RS M)) (c : vec R 3),
    let src := g_source s : vec R 3 in
    let tgt := g_target s : vec R 3 in
    (3 <= a)%nat -> (12 * a < W)%nat -> 0 < r -> 0 < rdist tgt src ->
    aligned rot_align meq s A ->
    veq_on L ((fun q => q = src \/ q = tgt \/ rim a A src r q \/ rim a A tgt r q) : vec (RS M) 3 -> Prop) ->
    mb_cylinder L W meq dbg self SZ rot_align a (@mkCylinder (RS M) s r) = Ok (Some m) ->
    let d := 2 * PI / INR a in
    let full := PI * (r * r) * rdist tgt src in
    volume c m = INR a / 2 * sin d * (r * r) * rdist tgt src /\
    0 < 1 - d * d / 6 /\ (1 - d * d / 6) * full <= volume c m < full.
Proof.
  intros M L W meq rot_align dbg self SZ s r A a m c src tgt Ha HW Hr Hl Hal HG E d full.
  destruct (cylinder_mesh M L W meq rot_align dbg self SZ s r A a Ha Hr Hl Hal HW HG) as (m' & E' & H).
  rewrite E in E'. injection E' as <-.
  assert (V : volume c m = INR a / 2 * sin d * (r * r) * rdist tgt src).
  { rewrite (good_volume M W dbg self _ _ _ _ m c (affine A src rzero) H (ytri_closed a Ha)). unfold yworld.
    rewrite solid6_affine, (cylinder_solid6 a Ha), (rigid_det A) by apply Hal. fold d src tgt. field. }
  destruct (ngon_bounds a Ha) as ((B1 & B2) & B3 & B4). fold d in B1, B2, B3, B4.
  assert (Q : 0 < r * r * rdist tgt src / 2) by (assert (0 < r * r * rdist tgt src) by (repeat apply Rmult_lt_0_compat; assumption); lra).
  split; [exact V|]. split; [exact B4|]. rewrite V. unfold full.
  replace (INR a / 2 * _ * _ * _) with ((r * r * rdist tgt src / 2) * (INR a * sin d)) by field.
  replace (PI * (r * r) * rdist tgt src) with ((r * r * rdist tgt src / 2) * (2 * PI)) by field. split.
  - replace ((1 - d * d / 6) * _) with ((r * r * rdist tgt src / 2) * (2 * PI * (1 - d * d / 6))) by field. apply Rmult_le_compat_l; lra.
  - apply Rmult_lt_compat_l; lra.
Qed.
Print Assumptions C62_cylinder_volume.

(** The cuboid: the determinant of its sides, negative for left-handed sides. *)
Theorem C62_cuboid_volume :
  forall (M : R) (L : Linal (RS M)) W dbg self SZ (o0 d0 o x y z : vec R 3) (m : mesh (RS M)) (c : vec R 3),
    (36 < W)%nat -> rdot (rcross x y) z <> 0 ->
    veq_on L (cuboid_corner o x y z : vec (RS M) 3 -> Prop) ->
    mb_cuboid L W dbg self SZ o0 d0 (@mkCuboid (RS M) o x y z) = Ok m ->
    volume c m = rdot (rcross x y) z.
Proof.
  intros M L W dbg self SZ o0 d0 o x y z m c HW Hd HG E.
  destruct (cuboid_good M L W dbg self SZ o x y z HW Hd HG) as (m' & E' & H).
  unfold mb_cuboid, cb_build, cb_set_cuboid in E. cbn [cb_cube] in E. rewrite E' in E. cbn [bind] in E. apply Ok_inj in E. subst m'.
  rewrite (good_volume M W dbg self _ _ _ _ m c o H btri_closed), cuboid_solid6. field.
Qed.
Print Assumptions C62_cuboid_volume.

(** non-vacuity: the octahedron, and a cuboid whose facets point inwards *)
Example C62_sphere_example :
  exists m, mb_sphere xL 256 meq_exact true 7%nat 256 2 4 rzero (@mkSphere (RS 1) (1, (2, (3, tt))) 1) = Ok m /\
    forall c, volume c m = 4 / 3.
Proof.
  assert (Hw : (6 * 4 * (2 - 1) < 256)%nat) by lia.
  destruct (C32_sphere_mesh 1 xL 256 meq_exact true 7%nat 256 2 4 rzero (1, (2, (3, tt))) 1 ltac:(lia) ltac:(lia) Hw ltac:(lra) (xL_on _)) as (m & E & _).
  exists m. split; [exact E|]. intros c.
  destruct (C62_sphere_volume 1 xL 256 meq_exact true 7%nat 256 2 4 rzero (1, (2, (3, tt))) 1 m c ltac:(lia) ltac:(lia) Hw ltac:(lra) (xL_on _) E) as (-> & _).
  replace (INR 4) with 4 by (cbn; ring). replace (INR 2) with 2 by (cbn; ring).
  replace (2 * PI / 4) with (PI / 2) by field. rewrite sin_PI2, cos_PI2. field.
Qed.
Example C62_cuboid_example :
  exists m, mb_cuboid xL 256 true 7%nat 256 rzero rzero
      (@mkCuboid (RS 1) (1, (2, (3, tt))) (2, (0, (0, tt))) (0, (3, (0, tt))) (0, (0, (-4, tt)))) = Ok m /\
    forall c, volume c m = -24.
Proof.
  destruct (C33_cuboid_mesh 1 xL 256 true 7%nat 256 rzero rzero (1, (2, (3, tt))) (2, (0, (0, tt))) (0, (3, (0, tt))) (0, (0, (-4, tt)))) as (m & E & _).
  - lia.
  - cbn. lra.
  - apply xL_on.
  - exists m. split; [exact E|]. intros c.
    rewrite (C62_cuboid_volume 1 xL 256 true 7%nat 256 rzero rzero (1, (2, (3, tt))) (2, (0, (0, tt))) (0, (3, (0, tt))) (0, (0, (-4, tt))) m c); [cbn; ring|lia|cbn; lra|apply xL_on|exact E].
Qed.
Example C62_axis_example :
  exists m, mb_cylinder xL 256 meq_exact true 7%nat 256 rot_align_ref 4 (@mkCylinder (RS 1) ex_axis 2) = Ok (Some m) /\
    forall c, volume c m = 40.
Proof.
  assert (HG : forall G, veq_on xL (G : vec (RS 1) 3 -> Prop)) by exact xL_on.
  assert (Hl : 0 < rdist (g_target ex_axis : vec R 3) (g_source ex_axis)) by (rewrite ex_axis_length; lra).
  assert (Hw : (12 * 4 < 256)%nat) by lia.
  destruct (C33_cylinder_mesh 1 xL 256 meq_exact rot_align_ref true 7%nat 256 ex_axis 2 _ 4 ltac:(lia) Hw ltac:(lra) Hl ex_aligned (HG _)) as (m & E & _).
  exists m. split; [exact E|]. intros c.
  destruct (C62_cylinder_volume 1 xL 256 meq_exact rot_align_ref true 7%nat 256 ex_axis 2 _ 4 m c ltac:(lia) Hw ltac:(lra) Hl ex_aligned (HG _) E) as (-> & _).
  rewrite ex_axis_length. replace (INR 4) with 4 by (cbn; ring). replace (2 * PI / 4) with (PI / 2) by field. rewrite sin_PI2. field.
Qed.
