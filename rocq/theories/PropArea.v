(** * Property theorems: the area of the tessellations (C87) *)

From Coq Require Import List Arith Bool Lia Reals Lra Psatz.
From Verif Require Import Scalar Linal Result SpecReal VecR VecLemmas SpecKdTree ModelShapes ModelTransform SpecTransform ProofTransform
  ModelMesh SpecMesh ModelTess SpecTess SpecArea ProofTessComb ProofTessSphere ProofTessRound ProofTess ProofTessCuboid ProofTessRot ProofVolume ProofArea PropTess.
Import ListNotations.
Local Open Scope R_scope.

(** the perimeter of the polygon *)
Lemma chord_bounds a : (3 <= a)%nat -> let d := 2 * PI / INR a in
  INR a * sin (d / 2) < PI /\ PI * (1 - d * d / 6) <= INR a * sin (d / 2) * cos (d / 2) /\ 0 < INR a * sin (d / 2) /\ 0 < cos (d / 2) <= 1.
Proof.
  intros Ha. cbv zeta. destruct (half_step a Ha) as (Hd & Hs & Hc). destruct (ngon_bounds a Ha) as ((B1 & _) & _ & _). pose proof (azi_full a Ha) as F. pose proof (INR_a a Ha) as HI.
  set (d := 2 * PI / INR a) in *. repeat split; try lra.
  - apply Rlt_le_trans with (INR a * (d / 2)); [|lra]. apply Rmult_lt_compat_l; [lra|]. apply sin_lt_x; lra.
  - replace (sin d) with (2 * sin (d / 2) * cos (d / 2)) in B1 by (rewrite <- sin_2a; f_equal; field). lra.
  - apply Rmult_lt_0_compat; lra.
  - apply COS_bound.
Qed.

(** ** C87: the sphere *)
Theorem C87_sphere_area :
  forall (M : R) (L : Linal (RS M)) W meq dbg self SZ (p a : nat) (o0 o : vec R 3) (r : R) (m : mesh (RS M)),
    (2 <= p)%nat -> (3 <= a)%nat -> (6 * a * (p - 1) < W)%nat -> 0 < r ->
    veq_on L ((fun q => sphere_grid p a o r q \/ q = o \/ q = rzero) : vec (RS M) 3 -> Prop) ->
    mb_sphere L W meq dbg self SZ p a o0 (@mkSphere (RS M) o r) = Ok m ->
    let d := 2 * PI / INR a in
    let e := PI / INR p in
    let full := 4 * PI * (r * r) in
    4 * INR a * sin (d / 2) * cos (d / 2) * cos (e / 2) * (r * r) <= area m <= 4 * INR a * sin (d / 2) * cos (e / 2) * (r * r) /\
    0 < (1 - d * d / 6) * (1 - e * e / 8) /\
    (1 - d * d / 6) * (1 - e * e / 8) * full <= area m < full.
Proof.
  intros M L W meq dbg self SZ p a o0 o r m Hp Ha HW Hr HG E d e full.
  destruct (sphere_mesh M L W meq dbg self SZ p a o0 o r Hp Ha HW Hr HG) as (m' & E' & H).
  rewrite E in E'. apply Ok_inj in E'. subst m'.
  pose proof (good_area M W dbg self _ _ _ _ m H) as V.
  destruct (sphere_twice p a Hp Ha o r Hr) as (S1 & S2). fold d e in S1, S2.
  set (T := twice_area _ _) in *.
  destruct (chord_bounds a Ha) as (B1 & B2 & B3 & B4 & B5). fold d in B1, B2, B3, B4, B5.
  destruct (ngon_bounds a Ha) as (_ & _ & N4). fold d in N4.
  destruct (half_polar p Hp) as (E1 & _ & E2). fold e in E1, E2.
  pose proof PI_RGT_0 as P0. pose proof PI_4 as P4.
  assert (C1 : 1 - e * e / 8 <= cos (e / 2)) by (pose proof (cos_low (e / 2) ltac:(lra)); lra).
  assert (C2 : 0 < 1 - e * e / 8) by nra.
  assert (C3 : cos (e / 2) <= 1) by apply COS_bound.
  assert (R2 : 0 < r * r) by now apply Rmult_lt_0_compat.
  assert (A1 : 4 * INR a * sin (d / 2) * cos (d / 2) * cos (e / 2) * (r * r) <= area m) by (rewrite V; lra).
  assert (A2 : area m <= 4 * INR a * sin (d / 2) * cos (e / 2) * (r * r)) by (rewrite V; lra).
  split; [now split|]. split; [now apply Rmult_lt_0_compat|]. unfold full. split.
  - eapply Rle_trans; [|exact A1].
    replace ((1 - d * d / 6) * (1 - e * e / 8) * (4 * PI * (r * r))) with (4 * (r * r) * ((PI * (1 - d * d / 6)) * (1 - e * e / 8))) by ring.
    replace (4 * INR a * sin (d / 2) * cos (d / 2) * cos (e / 2) * (r * r)) with (4 * (r * r) * ((INR a * sin (d / 2) * cos (d / 2)) * cos (e / 2))) by ring.
    apply Rmult_le_compat_l; [lra|]. apply Rmult_le_compat; try lra. apply Rmult_le_pos; lra.
  - eapply Rle_lt_trans; [exact A2|].
    apply Rle_lt_trans with (4 * (r * r) * (INR a * sin (d / 2))).
    + replace (4 * INR a * sin (d / 2) * cos (e / 2) * (r * r)) with (4 * (r * r) * (INR a * sin (d / 2) * cos (e / 2))) by ring.
      apply Rmult_le_compat_l; [lra|]. rewrite <- (Rmult_1_r (INR a * sin (d / 2))) at 2. apply Rmult_le_compat_l; lra.
    + replace (4 * PI * (r * r)) with (4 * (r * r) * PI) by ring. apply Rmult_lt_compat_l; lra.
Qed.
Print Assumptions C87_sphere_area.

(** ** The cone: a polygon and a fan of triangles *)
Theorem C87_cone_area :
  forall (M : R) (L : Linal (RS M)) W meq rot_align dbg self SZ (s : segment (RS M) 3) (r : R) (A : vec (vec R 3) 3) (a : nat)
         (m : mesh (RS M)),
    let src := g_source s : vec R 3 in
    let tgt := g_target s : vec R 3 in
    LinalR L -> (3 <= a)%nat -> (6 * a < W)%nat -> 0 < r -> 0 < rdist tgt src -> (dbg = true -> leps L < rdist tgt src) ->
    aligned rot_align meq s A ->
    veq_on L ((fun q => q = src \/ q = tgt \/ rim a A src r q) : vec (RS M) 3 -> Prop) ->
    mb_cone L W meq dbg self SZ rot_align a (@mkCone (RS M) s r) = Ok (Some m) ->
    let d := 2 * PI / INR a in
    let h := rdist tgt src in
    let full := PI * (r * r) + PI * r * sqrt (h * h + r * r) in
    area m = INR a / 2 * sin d * (r * r) + INR a * sin (d / 2) * r * sqrt (h * h + r * cos (d / 2) * (r * cos (d / 2))) /\
    0 < 1 - d * d / 6 /\ (1 - d * d / 6) * full <= area m < full.
Proof.
  intros M L W meq rot_align dbg self SZ s r A a m src tgt HL Ha HW Hr Hl Hd Hal HG E d h full.
  destruct (cone_mesh M L HL W meq rot_align dbg self SZ s r A a Ha Hr Hl Hal HW Hd HG) as (m' & E' & H).
  rewrite E in E'. injection E' as <-.
  assert (V : area m = INR a / 2 * sin d * (r * r) + INR a * sin (d / 2) * r * sqrt (h * h + r * cos (d / 2) * (r * cos (d / 2)))).
  { rewrite (good_area M W dbg self _ _ _ _ m H). unfold kworld.
    rewrite twice_area_affine by (apply rigid_shift, Hal). rewrite (cone_twice a Ha r) by assumption. fold d src tgt h. field. }
  destruct (chord_bounds a Ha) as (B1 & B2 & B3 & B4 & B5). fold d in B1, B2, B3, B4, B5.
  destruct (ngon_bounds a Ha) as ((N1 & N2) & N3 & N4). fold d in N1, N2, N3, N4. pose proof PI_RGT_0 as P0.
  fold h in Hl. assert (R2 : 0 < r * r) by now apply Rmult_lt_0_compat. assert (H2 : 0 < h * h) by now apply Rmult_lt_0_compat.
  set (c := cos (d / 2)) in *. set (x := sqrt (h * h + r * c * (r * c))) in *. set (y := sqrt (h * h + r * r)) in *.
  assert (C2 : 0 <= c * c <= 1) by nra.
  assert (Y0 : 0 < y) by (apply sqrt_lt_R0; lra).
  assert (XY : x <= y) by (apply sqrt_le_1_alt; nra).
  assert (YX : c * y <= x).
  { assert (Ec : c * y = sqrt (c * c * (h * h + r * r))) by (unfold y; rewrite sqrt_mult, sqrt_square by lra; reflexivity). rewrite Ec. apply sqrt_le_1_alt. nra. }
  split; [exact V|]. split; [exact N4|]. rewrite V. unfold full. split.
  - rewrite Rmult_plus_distr_l. apply Rplus_le_compat.
    + replace (INR a / 2 * sin d * (r * r)) with (r * r / 2 * (INR a * sin d)) by field. replace ((1 - d * d / 6) * (PI * (r * r))) with (r * r / 2 * (2 * PI * (1 - d * d / 6))) by field. apply Rmult_le_compat_l; lra.
    + apply Rle_trans with (INR a * sin (d / 2) * r * (c * y)).
      * replace ((1 - d * d / 6) * (PI * r * y)) with (r * y * (PI * (1 - d * d / 6))) by ring. replace (INR a * sin (d / 2) * r * (c * y)) with (r * y * (INR a * sin (d / 2) * c)) by ring.
        apply Rmult_le_compat_l; [apply Rmult_le_pos; lra|exact B2].
      * apply Rmult_le_compat_l; [apply Rmult_le_pos; lra|exact YX].
  - apply Rplus_lt_compat.
    + replace (INR a / 2 * sin d * (r * r)) with (r * r / 2 * (INR a * sin d)) by field. replace (PI * (r * r)) with (r * r / 2 * (2 * PI)) by field. apply Rmult_lt_compat_l; lra.
    + apply Rle_lt_trans with (INR a * sin (d / 2) * r * y); [apply Rmult_le_compat_l; [apply Rmult_le_pos; lra|exact XY]|].
      apply Rmult_lt_compat_r; [exact Y0|]. apply Rmult_lt_compat_r; [exact Hr|exact B1].
Qed.
Print Assumptions C87_cone_area.

(** ** The cylinder: two polygons and rectangles *)
Theorem C87_cylinder_area :
  forall (M : R) (L : Linal (RS M)) W meq rot_align dbg self SZ (s : segment (RS M) 3) (r : R) (A : vec (vec R 3) 3) (a : nat)
         (m : mesh (RS M)),
    let src := g_source s : vec R 3 in
    let tgt := g_target s : vec R 3 in
    (3 <= a)%nat -> (12 * a < W)%nat -> 0 < r -> 0 < rdist tgt src ->
    aligned rot_align meq s A ->
    veq_on L ((fun q => q = src \/ q = tgt \/ rim a A src r q \/ rim a A tgt r q) : vec (RS M) 3 -> Prop) ->
    mb_cylinder L W meq dbg self SZ rot_align a (@mkCylinder (RS M) s r) = Ok (Some m) ->
    let d := 2 * PI / INR a in
    let h := rdist tgt src in
    let full := 2 * PI * (r * r) + 2 * PI * r * h in
    area m = INR a * sin d * (r * r) + 2 * INR a * sin (d / 2) * r * h /\
    0 < 1 - d * d / 6 /\ (1 - d * d / 6) * full <= area m < full.
Proof.
  intros M L W meq rot_align dbg self SZ s r A a m src tgt Ha HW Hr Hl Hal HG E d h full.
  destruct (cylinder_mesh M L W meq rot_align dbg self SZ s r A a Ha Hr Hl Hal HW HG) as (m' & E' & H).
  rewrite E in E'. injection E' as <-.
  assert (V : area m = INR a * sin d * (r * r) + 2 * INR a * sin (d / 2) * r * h).
  { rewrite (good_area M W dbg self _ _ _ _ m H). unfold yworld.
    rewrite twice_area_affine by (apply rigid_shift, Hal). rewrite (cylinder_twice a Ha r) by assumption. fold d src tgt h. field. }
  destruct (chord_bounds a Ha) as (B1 & B2 & B3 & B4 & B5). fold d in B1, B2, B3, B4, B5.
  destruct (ngon_bounds a Ha) as ((N1 & N2) & N3 & N4). fold d in N1, N2, N3, N4. pose proof PI_RGT_0 as P0.
  fold h in Hl. assert (R2 : 0 < r * r) by now apply Rmult_lt_0_compat. assert (RH : 0 < r * h) by now apply Rmult_lt_0_compat.
  split; [exact V|]. split; [exact N4|]. rewrite V. unfold full.
  replace (INR a * sin d * (r * r) + 2 * INR a * sin (d / 2) * r * h) with (r * r * (INR a * sin d) + 2 * (r * h) * (INR a * sin (d / 2))) by ring. split.
  - replace ((1 - d * d / 6) * (2 * PI * (r * r) + 2 * PI * r * h)) with (r * r * (2 * PI * (1 - d * d / 6)) + 2 * (r * h) * (PI * (1 - d * d / 6))) by ring.
    apply Rplus_le_compat; apply Rmult_le_compat_l; try lra. apply Rle_trans with (INR a * sin (d / 2) * cos (d / 2)); [exact B2|].
    rewrite <- (Rmult_1_r (INR a * sin (d / 2))) at 2. apply Rmult_le_compat_l; lra.
  - replace (2 * PI * (r * r) + 2 * PI * r * h) with (r * r * (2 * PI) + 2 * (r * h) * PI) by ring.
    apply Rplus_lt_compat; apply Rmult_lt_compat_l; lra.
Qed.
Print Assumptions C87_cylinder_area.

(** ** The cuboid: exactly its six faces, whatever its sides *)
Theorem C87_cuboid_area :
  forall (M : R) (L : Linal (RS M)) W dbg self SZ (o0 d0 o x y z : vec R 3) (m : mesh (RS M)),
    (36 < W)%nat -> rdot (rcross x y) z <> 0 ->
    veq_on L (cuboid_corner o x y z : vec (RS M) 3 -> Prop) ->
    mb_cuboid L W dbg self SZ o0 d0 (@mkCuboid (RS M) o x y z) = Ok m ->
    area m = 2 * (rnorm (rcross x y) + rnorm (rcross y z) + rnorm (rcross x z)).
Proof.
  intros M L W dbg self SZ o0 d0 o x y z m HW Hd HG E.
  destruct (cuboid_good M L W dbg self SZ o x y z HW Hd HG) as (m' & E' & H).
  unfold mb_cuboid, cb_build, cb_set_cuboid in E. cbn [cb_cube] in E. rewrite E' in E. cbn [bind] in E. apply Ok_inj in E. subst m'.
  rewrite (good_area M W dbg self _ _ _ _ m H), cuboid_twice. field.
Qed.
Print Assumptions C87_cuboid_area.

(** non-vacuity: an octahedron, a cuboid with sides 2, 3 and 4, a cylinder over a square *)
Example C87_sphere_example :
  exists m, mb_sphere xL 256 meq_exact true 7%nat 256 2 4 rzero (@mkSphere (RS 1) (1, (2, (3, tt))) 1) = Ok m /\
    8 * cos (PI / 4) <= area m <= 16 * cos (PI / 4) * cos (PI / 4).
Proof.
  assert (Hw : (6 * 4 * (2 - 1) < 256)%nat) by lia.
  destruct (C32_sphere_mesh 1 xL 256 meq_exact true 7%nat 256 2 4 rzero (1, (2, (3, tt))) 1 ltac:(lia) ltac:(lia) Hw ltac:(lra) (xL_on _)) as (m & E & _).
  exists m. split; [exact E|].
  destruct (C87_sphere_area 1 xL 256 meq_exact true 7%nat 256 2 4 rzero (1, (2, (3, tt))) 1 m ltac:(lia) ltac:(lia) Hw ltac:(lra) (xL_on _) E) as ((K1 & K2) & _).
  replace (INR 4) with 4 in K1, K2 by (cbn; ring). replace (INR 2) with 2 in K1, K2 by (cbn; ring).
  replace (2 * PI / 4 / 2) with (PI / 4) in K1, K2 by field. replace (PI / 2 / 2) with (PI / 4) in K1, K2 by field.
  assert (E2 : 2 * sin (PI / 4) * cos (PI / 4) = 1) by (rewrite <- sin_2a; replace (2 * (PI / 4)) with (PI / 2) by field; apply sin_PI2).
  rewrite sin_cos_PI4 in K1, K2, E2. split; [|lra].
  apply Rle_trans with (2 := K1). replace (4 * 4 * cos (PI / 4) * cos (PI / 4) * cos (PI / 4) * (1 * 1)) with (8 * (2 * cos (PI / 4) * cos (PI / 4)) * cos (PI / 4)) by ring. rewrite E2. lra.
Qed.
Example C87_cuboid_example :
  exists m, mb_cuboid xL 256 true 7%nat 256 rzero rzero
      (@mkCuboid (RS 1) (1, (2, (3, tt))) (2, (0, (0, tt))) (0, (3, (0, tt))) (0, (0, (-4, tt)))) = Ok m /\
    area m = 52.
Proof.
  destruct (C33_cuboid_mesh 1 xL 256 true 7%nat 256 rzero rzero (1, (2, (3, tt))) (2, (0, (0, tt))) (0, (3, (0, tt))) (0, (0, (-4, tt)))) as (m & E & _).
  - lia.
  - cbn. lra.
  - apply xL_on.
  - exists m. split; [exact E|].
    rewrite (C87_cuboid_area 1 xL 256 true 7%nat 256 rzero rzero (1, (2, (3, tt))) (2, (0, (0, tt))) (0, (3, (0, tt))) (0, (0, (-4, tt))) m); [|lia|cbn; lra|apply xL_on|exact E].
    assert (N : forall v k, 0 <= k -> rdot v v = k * k -> rnorm (v : vec R 3) = k) by (intros v k Hk Ek; unfold rnorm; rewrite Ek; now apply sqrt_square).
    rewrite (N _ 6), (N _ 12), (N _ 8); try lra; cbn; ring.
Qed.
Example C87_axis_example :
  exists m, mb_cylinder xL 256 meq_exact true 7%nat 256 rot_align_ref 4 (@mkCylinder (RS 1) ex_axis 2) = Ok (Some m) /\
    area m = 16 + 80 * sin (PI / 4).
Proof.
  assert (HG : forall G, veq_on xL (G : vec (RS 1) 3 -> Prop)) by exact xL_on.
  assert (Hl : 0 < rdist (g_target ex_axis : vec R 3) (g_source ex_axis)) by (rewrite ex_axis_length; lra).
  assert (Hw : (12 * 4 < 256)%nat) by lia.
  destruct (C33_cylinder_mesh 1 xL 256 meq_exact rot_align_ref true 7%nat 256 ex_axis 2 _ 4 ltac:(lia) Hw ltac:(lra) Hl ex_aligned (HG _)) as (m & E & _).
  exists m. split; [exact E|].
  destruct (C87_cylinder_area 1 xL 256 meq_exact rot_align_ref true 7%nat 256 ex_axis 2 _ 4 m ltac:(lia) Hw ltac:(lra) Hl ex_aligned (HG _) E) as (-> & _).
  rewrite ex_axis_length. replace (INR 4) with 4 by (cbn; ring). replace (2 * PI / 4) with (PI / 2) by field. rewrite sin_PI2. replace (PI / 2 / 2) with (PI / 4) by field. ring.
Qed.
Example C87_cone_example :
  exists m, mb_cone xL 256 meq_exact true 7%nat 256 rot_align_ref 4 (@mkCone (RS 1) ex_axis 2) = Ok (Some m) /\
    area m = 8 + 8 * sin (PI / 4) * sqrt (25 + 2 * cos (PI / 4) * (2 * cos (PI / 4))).
Proof.
  assert (HG : forall G, veq_on xL (G : vec (RS 1) 3 -> Prop)) by exact xL_on.
  assert (Hl : 0 < rdist (g_target ex_axis : vec R 3) (g_source ex_axis)) by (rewrite ex_axis_length; lra).
  assert (Hd : true = true -> leps xL < rdist (g_target ex_axis : vec R 3) (g_source ex_axis)) by (intros _; exact Hl).
  assert (Hw : (6 * 4 < 256)%nat) by lia.
  destruct (C33_cone_mesh 1 xL 256 meq_exact rot_align_ref true 7%nat 256 ex_axis 2 _ 4 xL_R ltac:(lia) Hw ltac:(lra) Hl Hd ex_aligned (HG _)) as (m & E & _).
  exists m. split; [exact E|].
  destruct (C87_cone_area 1 xL 256 meq_exact rot_align_ref true 7%nat 256 ex_axis 2 _ 4 m xL_R ltac:(lia) Hw ltac:(lra) Hl Hd ex_aligned (HG _) E) as (-> & _).
  rewrite ex_axis_length. replace (INR 4) with 4 by (cbn; ring). replace (2 * PI / 4) with (PI / 2) by field. rewrite sin_PI2. replace (PI / 2 / 2) with (PI / 4) by field.
  replace (5 * 5) with 25 by ring. field.
Qed.
