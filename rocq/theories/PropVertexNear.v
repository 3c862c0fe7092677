(** * Property theorems: vertex normals approximate the normals of the shapes (C92) *)

From Coq Require Import List Arith Bool Lia Reals Lra ZArith.
From Verif Require Import Scalar Linal Result SpecReal VecR VecLemmas ModelKdTree SpecKdTree SpecTransform SpecFloatErr SpecVertexNear
  ModelShapes ModelTransform ModelMesh SpecMesh ModelTess SpecTess ProofTransform ProofTessComb ProofTessConn ProofTessMesh ProofTessSphere ProofTessRound ProofTess ProofVolume ProofConvex
  ProofMeshNormal ProofVertexOut ProofVertexNear ProofVertexRound ProofTessCuboid ProofVertexBox ProofTessRot ProofTessRot PropTess.
Import ListNotations.
Local Open Scope R_scope.

(** what a scalar product says about the distance, in terms of the steps *)
Lemma near_steps p a (n w : vec R 3) : (2 <= p)%nat -> (3 <= a)%nat -> rnorm n = 1 -> rnorm w = 1 ->
  cos (PI / INR p / 2) * cos (PI / INR a) <= rdot n w -> rdist n w <= PI / (2 * INR p) + PI / INR a.
Proof.
  intros Hp Ha Hn Hw H. pose proof (unit_near n w _ Hn Hw H) as K. set (x := PI / INR p / 2) in *. set (y := PI / INR a) in *.
  pose proof (le_INR 2 p Hp) as P2. pose proof (le_INR 3 a Ha) as A3. cbn [INR] in P2, A3. pose proof PI_RGT_0 as pi0. pose proof PI_4 as pi4.
  assert (Hx : 0 < x <= 1).
  { unfold x. split; [apply Rdiv_lt_0_compat; [apply Rdiv_lt_0_compat; lra|lra]|]. apply Rmult_le_reg_r with 2; [lra|]. replace (PI / INR p / 2 * 2) with (PI / INR p) by (field; lra).
    apply Rmult_le_reg_r with (INR p); [lra|]. unfold Rdiv. rewrite Rmult_assoc, Rinv_l by lra. lra. }
  assert (Hy : 0 < y <= 4 / 3).
  { unfold y. split; [apply Rdiv_lt_0_compat; lra|]. apply Rmult_le_reg_r with (INR a); [lra|]. unfold Rdiv. rewrite Rmult_assoc, Rinv_l by lra. lra. }
  pose proof (cos_low x ltac:(lra)) as Cx. pose proof (cos_low y ltac:(lra)) as Cy. pose proof (COS_bound x) as Bx. pose proof (COS_bound y) as By.
  assert (Q : 2 * (1 - cos x * cos y) <= x * x + y * y).
  { assert (0 <= (1 - cos x) * (1 - cos y)) by (apply Rmult_le_pos; lra). replace (cos x * cos y) with (cos x + cos y - 1 + (1 - cos x) * (1 - cos y)) by ring. lra. }
  replace (PI / (2 * INR p)) with x by (unfold x; field; lra).
  assert (0 <= x * y) by (apply Rmult_le_pos; lra). assert (S0 : 0 <= x + y) by lra. apply Rsqr_incr_0_var; [|exact S0]. unfold Rsqr. replace ((x + y) * (x + y)) with (x * x + y * y + 2 * (x * y)) by ring. lra.
Qed.

(** ** C92: the sphere.  Whatever comparison drops repeated normals, the normal of a
    vertex differs from that of the sphere at this point by at most half a polar step
    plus half an azimuthal step; so do the normals of the facets at their corners. *)
Theorem C92_sphere :
  forall (M : R) (L L' : Linal (RS M)) W meq dbg self SZ (p a : nat) (o0 o : vec R 3) (r : R) (m : mesh (RS M)),
    (2 <= p)%nat -> (3 <= a)%nat -> (6 * a * (p - 1) < W)%nat -> 0 < r ->
    veq_on L ((fun q => sphere_grid p a o r q \/ q = o \/ q = rzero) : vec (RS M) 3 -> Prop) ->
    mb_sphere L W meq dbg self SZ p a o0 (@mkSphere (RS M) o r) = Ok m ->
    let near q n := cos (PI / INR p / 2) * cos (PI / INR a) <= rdot n (rdirection (rsub q o)) /\ rdist n (rdirection (rsub q o)) <= PI / (2 * INR p) + PI / INR a in
    length (m_points m) = ((p - 1) * a + 2)%nat /\ vertex_normals L' self m near /\ facet_normals self m near.
Proof.
  intros M L L' W meq dbg self SZ p a o0 o r m Hp Ha HW Hr HG E near.
  destruct (sphere_mesh M L W meq dbg self SZ p a o0 o r Hp Ha HW Hr HG) as (m' & E' & H).
  rewrite E in E'. apply Ok_inj in E'. subst m'. split; [apply H|].
  set (k := cos (PI / INR p / 2) * cos (PI / INR a)).
  assert (K0 : 0 < k) by (apply Rmult_lt_0_compat; [exact (half_polar p a Hp Ha)|apply (half_range a Ha)]).
  pose proof H as (_ & _ & Hpts & _ & _ & _ & _ & _ & _ & _ & _ & _ & L2 & ts & Hw).
  (* the points are on the sphere *)
  assert (On : forall q, In q (m_points m) -> rdist q o = r). { intros q Hq. apply Hpts in Hq as (v & Hv & ->). apply (spos_on_sphere p a o r Hr), (spos_grid p a Hp Ha o r). exists v. split; [exact Hv|reflexivity]. }
  assert (Facet : forall kk f, nth_error (m_facets m) kk = Some f -> exists n : vec R 3, calc_facet_normal (only self m) f = Ok n /\ rnorm n = 1 /\
     forall i h q, nth_error (m_halfedges m) i = Some h -> he_facet h = kk -> nth_error (m_points m) (he_vertex h) = Some q -> r * k <= rdot n (rsub q o)).
  { intros kk f Hf.
    destruct (good_facets M W dbg self _ _ _ _ m (fun q0 q1 q2 => (forall c, rdist c o <= r * k -> 0 <= sixvol c q0 q1 q2) /\ 0 < sixvol o q0 q1 q2) H) with (f := f) as (q0 & q1 & q2 & Et & Hside & Hpos).
    - intros x y z Hin. split; [|pose proof (ctri_away p a Hp Ha o r Hr x y z Hin) as F; unfold faces_away in F; rewrite behind_sixvol in F; exact F].
      intros c Hc. apply (sphere_ball_side p a Hp Ha o r Hr); [|exact Hin]. unfold k in Hc. rewrite Rmult_assoc. exact Hc.
    - exact (nth_error_In _ _ Hf).
    - assert (HC : rcross (rsub q1 q0) (rsub q2 q0) <> rzero) by (intros Z; rewrite <- behind_sixvol, Z, rdot_zero_l in Hpos; lra).
      destruct (facet_unit M L2 self ts m kk f q0 q1 q2 Hw Hf Et HC) as (n & En & N1 & Dn & _ & _ & Hq). exists n. split; [exact En|]. split; [exact N1|].
      intros i h q Hh Hk Hv. rewrite (Hq o i h q Hh Hk Hv), Dn. apply plane_clear; [apply Rmult_le_pos; lra|exact HC|exact Hside]. }
  assert (Near : forall (q n : vec R 3), In q (m_points m) -> rnorm n = 1 -> r * k <= rdot n (rsub q o) -> near q n).
  { intros q n Hq N1 Hd. pose proof (On q Hq) as D. unfold rdist in D. unfold near, rdirection. rewrite D.
    assert (W1 : rnorm (rscale (/ r) (rsub q o)) = 1) by (rewrite rnorm_scale, D, Rabs_right by (apply Rle_ge, Rlt_le, Rinv_0_lt_compat, Hr); field; lra).
    assert (Kn : k <= rdot n (rscale (/ r) (rsub q o))).
    { rewrite rdot_scale_r. apply Rmult_le_reg_l with r; [exact Hr|]. rewrite <- Rmult_assoc, Rinv_r, Rmult_1_l by lra. exact Hd. }
    split; [exact Kn|]. apply (near_steps p a); assumption. }
  split.
  - apply (collect_normals M L' L2 self ts m near Hw). intros v x q Hv Hq.
    destruct (vertex_near M L' L2 self ts m v x (rsub q o) (r * k) Hw Hv) as (n & En & N1 & Hn); [apply Rmult_lt_0_compat; lra| |].
    + intros kk f i h Hf Hh Hk Hhv. destruct (Facet kk f Hf) as (n & En & N1 & Hn). exists n. split; [exact En|]. split; [exact N1|]. apply (Hn i h q Hh Hk). rewrite Hhv. exact Hq.
    + exists n. split; [exact En|]. split; [exact N1|]. apply Near; [exact (nth_error_In _ _ Hq)|exact N1|exact Hn].
  - intros kk f Hf. destruct (Facet kk f Hf) as (n & En & N1 & Hn). exists n. split; [exact En|]. split; [exact N1|].
    intros i h q Hh Hk Hv. apply Near; [exact (nth_error_In _ _ Hv)|exact N1|exact (Hn i h q Hh Hk Hv)].
Qed.
Print Assumptions C92_sphere.

(** ** C92: the cylinder.  The centres have the normals of the two ends; a point of a
    rim has the direction of twice the radial direction, scaled with cos(pi/a), plus the
    normal of the end (repeated normals dropped by an exact comparison; any other still
    gives a normal within the bound); walls are parallel to the axis and at the angle
    pi/a to the radial direction. *)
Theorem C92_cylinder :
  forall (M : R) (L L' : Linal (RS M)) W meq rot_align dbg self SZ (s : segment (RS M) 3) (r : R) (A : vec (vec R 3) 3) (a : nat)
         (m : mesh (RS M)),
    let src := g_source s : vec R 3 in
    let tgt := g_target s : vec R 3 in
    (3 <= a)%nat -> (12 * a < W)%nat -> 0 < r -> 0 < rdist tgt src ->
    aligned rot_align meq s A ->
    veq_on L ((fun q => q = src \/ q = tgt \/ rim a A src r q \/ rim a A tgt r q) : vec (RS M) 3 -> Prop) ->
    mb_cylinder L W meq dbg self SZ rot_align a (@mkCylinder (RS M) s r) = Ok (Some m) ->
    let dir := rdirection (rsub tgt src) in let c := cos (PI / INR a) in
    length (m_points m) = (2 * a + 2)%nat /\
    vertex_normals L' self m (fun q n => q = src /\ n = rscale (-1) dir \/ q = tgt /\ n = dir \/
      rim a A src r q /\ c <= rdot n (radd (rdirection (rsub q src)) (rscale (-1) dir)) \/ rim a A tgt r q /\ c <= rdot n (radd (rdirection (rsub q tgt)) dir)) /\
    (veq_exact L' -> vertex_normals L' self m (fun q n => q = src /\ n = rscale (-1) dir \/ q = tgt /\ n = dir \/
      rim a A src r q /\ n = rdirection (radd (rscale (2 * c) (rdirection (rsub q src))) (rscale (-1) dir)) \/
      rim a A tgt r q /\ n = rdirection (radd (rscale (2 * c) (rdirection (rsub q tgt))) dir))) /\
    facet_normals self m (fun q n => n = rscale (-1) dir /\ (q = src \/ rim a A src r q) \/ n = dir /\ (q = tgt \/ rim a A tgt r q) \/
      rdot n dir = 0 /\ (rim a A src r q /\ rdot n (rdirection (rsub q src)) = c \/ rim a A tgt r q /\ rdot n (rdirection (rsub q tgt)) = c)).
Proof.
  intros M L L' W meq rot_align dbg self SZ s r A a m src tgt Ha HW Hr Hl Hal HG E dir c.
  destruct (cylinder_mesh M L W meq rot_align dbg self SZ s r A a Ha Hr Hl Hal HW HG) as (m' & E' & H).
  rewrite E in E'. injection E' as <-. split; [apply H|].
  assert (HA : rotation_onto A dir) by (destruct Hal as (K & _); rewrite direction_R in K; exact K).
  set (l := rdist tgt src) in *. set (lin := affine A rzero). set (nor := fun t => lin (ynor a t)).
  pose proof (yworld_inj M meq rot_align s r A a Ha Hr Hl Hal) as Hinj.
  assert (Hcor : forall x y z, In (x, y, z) (map (ytri a) (ytags a)) -> yv_ok a x /\ yv_ok a y /\ yv_ok a z).
  { intros x y z Hin. apply in_map_iff in Hin as (t & Et & Ht). apply ytags_ok, ytri_ok in Ht. rewrite Et in Ht. exact Ht. }
  assert (Hnor : forall x y z, In (x, y, z) (map (ytri a) (ytags a)) -> rnorm (nor (x, y, z)) = 1 /\
    exists k, 0 < k /\ rcross (rsub (yworld M s r A a y) (yworld M s r A a z)) (rsub (yworld M s r A a x) (yworld M s r A a z)) = rscale k (nor (x, y, z))).
  { intros x y z Hin. destruct (ynor_normal a Ha r l Hr Hl x y z Hin) as (N1 & k & Hk & EC). split; [unfold nor, lin; rewrite (lin_norm A (proj1 HA)); exact N1|].
    exists k. split; [exact Hk|]. apply (lin_normal A (proj1 HA) (proj1 (proj2 HA))). exact EC. }
  (* the points *)
  assert (PB : yworld M s r A a YB = src) by apply axis_start. assert (PT : yworld M s r A a YT = tgt) by apply (axis_end M s A Hl (proj1 Hal)).
  assert (PRT : forall j, yworld M s r A a (YRT j) = affine A tgt (cylindrical r (azi a j) 0)) by (intros j; unfold yworld; cbn [ypos]; rewrite affine_cyl; f_equal; apply (axis_end M s A Hl (proj1 Hal))).
  assert (DB : forall j, rdirection (rsub (yworld M s r A a (YRB j)) src) = lin (spoke a j)) by (intros j; apply (rim_direction A dir HA a r src j Hr)).
  assert (DT : forall j, rdirection (rsub (yworld M s r A a (YRT j)) tgt) = lin (spoke a j)) by (intros j; rewrite PRT; apply (rim_direction A dir HA a r tgt j Hr)).
  assert (RB : forall j, (j < a)%nat -> rim a A src r (yworld M s r A a (YRB j))) by (intros j Hj; exists j; split; [exact Hj|reflexivity]).
  assert (RT : forall j, (j < a)%nat -> rim a A tgt r (yworld M s r A a (YRT j))) by (intros j Hj; exists j; split; [exact Hj|apply PRT]).
  assert (LD : lin (down) = rscale (-1) dir) by apply (lin_down A dir HA). assert (LZ : lin e_z = dir) by apply (lin_ez A dir HA).
  pose proof (lin_rigid_dot A dir HA) as LR. fold lin in LR. pose proof (cos_half a Ha) as c0. fold c in c0.
  assert (Add : forall u v, lin (radd u v) = radd (lin u) (lin v)) by (intros u v; apply (lin_add A)). assert (Sc : forall k u, lin (rscale k u) = rscale k (lin u)) by (intros k u; apply (lin_scale A)).
  assert (C1 : c <= 1) by apply COS_bound.
  pose proof H as (_ & _ & Hpts & _ & _ & _ & _ & _ & _ & _ & _ & _ & L2 & ts & Hw).
  assert (Meet : forall v0 t, yv_ok a v0 -> In t (map (ytri a) (ytags a)) -> at_corner v0 t -> In (ynor a t) (ymeet a v0)).
  { intros v0 t Hv Ht Hc. apply (ymeet_spec a Ha v0 Hv). exists t. auto. }
  split; [|split].
  - apply (collect_normals M L' L2 self ts m _ Hw). intros v x q Hx Hq. destruct (proj1 (Hpts q) (nth_error_In _ _ Hq)) as (v0 & Hv0 & Eq). subst q.
    pose proof (fun w rho => shape_near M L' W dbg self _ _ _ _ m H Hinj Hcor nor Hnor v0 v x w rho Hv0 Hx Hq) as SN.
    destruct v0 as [| |j|j]; cbn [yv_ok] in Hv0.
    + destruct (SN (lin down) 1) as (n & En & N1 & Hn); [lra| |].
      { intros t Ht Hc. unfold nor. rewrite LR. destruct (Meet YB t Hv0 Ht Hc) as [<-|[]]. unfold down. cbn. lra. }
      exists n. split; [exact En|]. split; [exact N1|]. left. split; [exact PB|]. rewrite <- LD. apply (along_unit n (lin down)); [exact N1|unfold lin; rewrite (lin_norm A (proj1 HA)); apply down_unit|exact Hn].
    + destruct (SN (lin e_z) 1) as (n & En & N1 & Hn); [lra| |].
      { intros t Ht Hc. unfold nor. rewrite LR. destruct (Meet YT t Hv0 Ht Hc) as [<-|[]]. unfold e_z. cbn. lra. }
      exists n. split; [exact En|]. split; [exact N1|]. right; left. split; [exact PT|]. rewrite <- LZ. apply (along_unit n (lin e_z)); [exact N1|unfold lin; rewrite (lin_norm A (proj1 HA)); apply ez_unit|exact Hn].
    + destruct (SN (lin (radd (spoke a j) (rscale (-1) e_z))) c c0) as (n & En & N1 & Hn).
      { intros t Ht Hc. unfold nor. rewrite LR, rdot_add_r, rdot_scale_r. destruct (Meet (YRB j) t Hv0 Ht Hc) as [<-|[<-|[<-|[]]]].
        - unfold down, spoke, e_z. cbn. lra.
        - destruct (wall_spoke a Ha (prv a j) (prv_lt a Ha j Hv0)) as (_ & K). rewrite (nxt_prv a Ha j Hv0) in K. rewrite K. unfold wall, e_z. cbn. fold c. lra.
        - destruct (wall_spoke a Ha j Hv0) as (K & _). rewrite K. unfold wall, e_z. cbn. fold c. lra. }
      exists n. split; [exact En|]. split; [exact N1|]. right; right; left. split; [exact (RB j Hv0)|]. rewrite DB, <- LZ, <- Sc, <- Add. exact Hn.
    + destruct (SN (lin (radd (spoke a j) e_z)) c c0) as (n & En & N1 & Hn).
      { intros t Ht Hc. unfold nor. rewrite LR, rdot_add_r. destruct (Meet (YRT j) t Hv0 Ht Hc) as [<-|[<-|[<-|[]]]].
        - unfold spoke, e_z. cbn. lra.
        - destruct (wall_spoke a Ha (prv a j) (prv_lt a Ha j Hv0)) as (_ & K). rewrite (nxt_prv a Ha j Hv0) in K. rewrite K. unfold wall, e_z. cbn. fold c. lra.
        - destruct (wall_spoke a Ha j Hv0) as (K & _). rewrite K. unfold wall, e_z. cbn. fold c. lra. }
      exists n. split; [exact En|]. split; [exact N1|]. right; right; right. split; [exact (RT j Hv0)|]. rewrite DT, <- LZ, <- Add. exact Hn.
  - intros HX. apply (collect_normals M L' L2 self ts m _ Hw). intros v x q Hx Hq. destruct (proj1 (Hpts q) (nth_error_In _ _ Hq)) as (v0 & Hv0 & Eq). subst q.
    destruct (shape_exact M L' W dbg self _ _ _ _ m H Hinj Hcor nor Hnor v0 v x (map lin (ymeet a v0)) HX Hv0 Hx Hq) as (En & N1).
    + apply NoDup_map_on; [intros y z _ _; apply (lin_inj A dir HA)|apply (ymeet_NoDup a Ha v0 Hv0)].
    + unfold lin. rewrite lin_sum. apply (lin_nonzero A dir HA). destruct v0 as [| |j|j]; cbn [yv_ok] in Hv0.
      * intros K. injection K as K. lra.
      * intros K. injection K as K. lra.
      * rewrite (proj1 (ysum_rim a Ha j Hv0)). apply rim_sum_ne. fold c. lra.
      * rewrite (proj2 (ysum_rim a Ha j Hv0)). replace e_z with (rscale 1 e_z) by (unfold e_z; coords). apply rim_sum_ne. fold c. lra.
    + intros d. rewrite in_map_iff. split.
      * intros (u & <- & Hu). apply (ymeet_spec a Ha v0 Hv0) in Hu as (t & Ht & Hc & ->). exists t. auto.
      * intros (t & Ht & Hc & ->). exists (ynor a t). split; [reflexivity|exact (Meet v0 t Hv0 Ht Hc)].
    + exists (rdirection (rsum (map lin (ymeet a v0)))). split; [exact En|]. split; [exact N1|]. clear En N1. unfold lin. rewrite lin_sum. fold lin. destruct v0 as [| |j|j]; cbn [yv_ok] in Hv0.
      * left. split; [exact PB|]. rewrite <- LD. replace (rsum (ymeet a YB)) with (rscale 1 down) by (unfold down; cbn; unfold rzero; coords). rewrite Sc. apply unit_direction_id; [unfold lin; rewrite (lin_norm A (proj1 HA)); apply down_unit|lra].
      * right; left. split; [exact PT|]. rewrite <- LZ. replace (rsum (ymeet a YT)) with (rscale 1 e_z) by (unfold e_z; cbn; unfold rzero; coords). rewrite Sc. apply unit_direction_id; [unfold lin; rewrite (lin_norm A (proj1 HA)); apply ez_unit|lra].
      * right; right; left. split; [exact (RB j Hv0)|]. rewrite DB, (proj1 (ysum_rim a Ha j Hv0)), Add, !Sc, LZ. reflexivity.
      * right; right; right. split; [exact (RT j Hv0)|]. rewrite DT, (proj2 (ysum_rim a Ha j Hv0)), Add, !Sc, LZ. reflexivity.
  - intros k f Hf. destruct (shape_facet M W dbg self _ _ _ _ m H nor Hnor k f Hf) as (t & Ht & En & N1 & Hq). exists (nor t). split; [exact En|]. split; [exact N1|].
    intros i h q Hh Hk Hv. destruct (Hq i h q Hh Hk Hv) as (u & Hu & ->). apply in_map_iff in Ht as (g & <- & Hg). apply ytags_ok in Hg.
    destruct g as [j|j|j|j]; cbn in Hg; unfold nor; cbn [ytri ynor]; cbn [ytri at_corner] in Hu; pose proof (nxt_lt a Ha j Hg) as Hn; pose proof (prv_lt a Ha j Hg) as Hp.
    + left. split; [exact LD|]. destruct Hu as [-> | [-> | ->]]; [left; exact PB|right; apply RB; assumption|right; apply RB; assumption].
    + right; left. split; [exact LZ|]. destruct Hu as [-> | [-> | ->]]; [left; exact PT|right; apply RT; assumption|right; apply RT; assumption].
    + right; right. destruct (wall_spoke a Ha j Hg) as (K1 & K2). split; [rewrite <- LZ, LR; unfold wall, e_z; cbn; ring|].
      destruct Hu as [-> | [-> | ->]]; [left; split; [apply RB; assumption|rewrite DB, LR; exact K1]|right; split; [apply RT; assumption|rewrite DT, LR; exact K1]|left; split; [apply RB; assumption|rewrite DB, LR; exact K2]].
    + right; right. destruct (wall_spoke a Ha j Hg) as (K1 & K2). split; [rewrite <- LZ, LR; unfold wall, e_z; cbn; ring|].
      destruct Hu as [-> | [-> | ->]]; [right; split; [apply RT; assumption|rewrite DT, LR; exact K1]|right; split; [apply RT; assumption|rewrite DT, LR; exact K2]|left; split; [apply RB; assumption|rewrite DB, LR; exact K2]].
Qed.
Print Assumptions C92_cylinder.

(** ** C92: the cone.  The base centre has the normal of the base; the normal at the
    apex is the direction of the axis; sides are at a fixed angle to the axis, the one
    of the cone through the middles of the base edges. *)
Theorem C92_cone :
  forall (M : R) (L L' : Linal (RS M)) W meq rot_align dbg self SZ (s : segment (RS M) 3) (r : R) (A : vec (vec R 3) 3) (a : nat)
         (m : mesh (RS M)),
    let src := g_source s : vec R 3 in
    let tgt := g_target s : vec R 3 in
    LinalR L -> (3 <= a)%nat -> (6 * a < W)%nat -> 0 < r -> 0 < rdist tgt src -> (dbg = true -> leps L < rdist tgt src) ->
    aligned rot_align meq s A ->
    veq_on L ((fun q => q = src \/ q = tgt \/ rim a A src r q) : vec (RS M) 3 -> Prop) ->
    mb_cone L W meq dbg self SZ rot_align a (@mkCone (RS M) s r) = Ok (Some m) ->
    let dir := rdirection (rsub tgt src) in let c := cos (PI / INR a) in let l := rdist tgt src in let sl := sqrt (l * l + r * c * (r * c)) in
    length (m_points m) = (a + 2)%nat /\
    vertex_normals L' self m (fun q n => q = src /\ n = rscale (-1) dir \/ q = tgt /\ r * c / sl <= rdot n dir \/
      rim a A src r q /\ l * c <= rdot n (radd (rscale (sl + r * c) (rdirection (rsub q src))) (rscale (- (l * c)) dir))) /\
    (veq_exact L' -> vertex_normals L' self m (fun q n => q = src /\ n = rscale (-1) dir \/ q = tgt /\ n = dir \/
      rim a A src r q /\ n = rdirection (radd (rscale (2 * c * (l / sl)) (rdirection (rsub q src))) (rscale (2 * c * (r / sl) - 1) dir)))) /\
    facet_normals self m (fun q n => n = rscale (-1) dir /\ (q = src \/ rim a A src r q) \/
      rdot n dir = r * c / sl /\ (q = tgt \/ rim a A src r q /\ rdot n (rdirection (rsub q src)) = l / sl * c)).
Proof.
  intros M L L' W meq rot_align dbg self SZ s r A a m src tgt HL Ha HW Hr Hl Hd Hal HG E dir c l sl.
  destruct (cone_mesh M L HL W meq rot_align dbg self SZ s r A a Ha Hr Hl Hal HW Hd HG) as (m' & E' & H).
  rewrite E in E'. injection E' as <-. split; [apply H|].
  assert (HA : rotation_onto A dir) by (destruct Hal as (K & _); rewrite direction_R in K; exact K).
  fold l in Hl. set (lin := affine A rzero). set (nor := fun t => lin (knor a r l t)).
  pose proof (kworld_inj M meq rot_align s r A a Ha Hr Hl Hal) as Hinj.
  assert (Hcor : forall x y z, In (x, y, z) (map (ktri a) (ktags a)) -> kv_ok a x /\ kv_ok a y /\ kv_ok a z).
  { intros x y z Hin. apply in_map_iff in Hin as (t & Et & Ht). apply ktags_ok, ktri_ok in Ht. rewrite Et in Ht. exact Ht. }
  assert (Hnor : forall x y z, In (x, y, z) (map (ktri a) (ktags a)) -> rnorm (nor (x, y, z)) = 1 /\
    exists k, 0 < k /\ rcross (rsub (kworld M s r A a y) (kworld M s r A a z)) (rsub (kworld M s r A a x) (kworld M s r A a z)) = rscale k (nor (x, y, z))).
  { intros x y z Hin. destruct (knor_normal a Ha r l Hr x y z Hin) as (N1 & k & Hk & EC). split; [unfold nor, lin; rewrite (lin_norm A (proj1 HA)); exact N1|].
    exists k. split; [exact Hk|]. apply (lin_normal A (proj1 HA) (proj1 (proj2 HA))). exact EC. }
  (* the points *)
  assert (PB : kworld M s r A a KC = src) by apply axis_start. assert (PT : kworld M s r A a KP = tgt) by apply (axis_end M s A Hl (proj1 Hal)).
  assert (DB : forall j, rdirection (rsub (kworld M s r A a (KR j)) src) = lin (spoke a j)) by (intros j; apply (rim_direction A dir HA a r src j Hr)).
  assert (RB : forall j, (j < a)%nat -> rim a A src r (kworld M s r A a (KR j))) by (intros j Hj; exists j; split; [exact Hj|reflexivity]).
  assert (LD : lin (down) = rscale (-1) dir) by apply (lin_down A dir HA). assert (LZ : lin e_z = dir) by apply (lin_ez A dir HA).
  pose proof (lin_rigid_dot A dir HA) as LR. fold lin in LR. pose proof (cos_half a Ha) as c0. fold c in c0.
  assert (Add : forall u v, lin (radd u v) = radd (lin u) (lin v)) by (intros u v; apply (lin_add A)). assert (Sc : forall k u, lin (rscale k u) = rscale k (lin u)) by (intros k u; apply (lin_scale A)).
  assert (s0 : 0 < sl) by apply (slant_pos a Ha r l Hr). assert (Esl : slant a r l = sl) by reflexivity.
  assert (rc0 : 0 < r * c) by (apply Rmult_lt_0_compat; lra). assert (lc0 : 0 < l * c) by (apply Rmult_lt_0_compat; lra). assert (ax0 : 0 < r * c / sl) by (apply Rdiv_lt_0_compat; lra).
  pose proof H as (_ & _ & Hpts & _ & _ & _ & _ & _ & _ & _ & _ & _ & L2 & ts & Hw).
  assert (Meet : forall v0 t, kv_ok a v0 -> In t (map (ktri a) (ktags a)) -> at_corner v0 t -> In (knor a r l t) (kmeet a r l v0)).
  { intros v0 t Hv Ht Hc. apply (kmeet_spec a Ha r l v0 Hv). exists t. auto. }
  assert (SA : forall j, rdot (side a r l j) e_z = r * c / sl) by (intros j; apply side_axis).
  split; [|split].
  - apply (collect_normals M L' L2 self ts m _ Hw). intros v x q Hx Hq. destruct (proj1 (Hpts q) (nth_error_In _ _ Hq)) as (v0 & Hv0 & Eq). subst q.
    pose proof (fun w rho => shape_near M L' W dbg self _ _ _ _ m H Hinj Hcor nor Hnor v0 v x w rho Hv0 Hx Hq) as SN.
    destruct v0 as [| |j]; cbn [kv_ok] in Hv0.
    + destruct (SN (lin down) 1) as (n & En & N1 & Hn); [lra| |].
      { intros t Ht Hc. unfold nor. rewrite LR. destruct (Meet KC t Hv0 Ht Hc) as [<-|[]]. unfold down. cbn. lra. }
      exists n. split; [exact En|]. split; [exact N1|]. left. split; [exact PB|]. rewrite <- LD. apply (along_unit n (lin down)); [exact N1|unfold lin; rewrite (lin_norm A (proj1 HA)); apply down_unit|exact Hn].
    + destruct (SN (lin e_z) (r * c / sl) ax0) as (n & En & N1 & Hn).
      { intros t Ht Hc. unfold nor. rewrite LR. pose proof (Meet KP t Hv0 Ht Hc) as K. cbn [kmeet] in K. apply in_map_iff in K as (j & <- & _). rewrite SA. lra. }
      exists n. split; [exact En|]. split; [exact N1|]. right; left. split; [exact PT|]. rewrite <- LZ. exact Hn.
    + destruct (SN (lin (radd (rscale (sl + r * c) (spoke a j)) (rscale (- (l * c)) e_z))) (l * c) lc0) as (n & En & N1 & Hn).
      { assert (Q : (sl + r * c) * (l / sl * c) + - (l * c) * (r * c / sl) = l * c) by (field; lra).
        intros t Ht Hc. unfold nor. rewrite LR, rdot_add_r, !rdot_scale_r. destruct (Meet (KR j) t Hv0 Ht Hc) as [<-|[<-|[<-|[]]]].
        - unfold down, spoke, e_z. cbn. lra.
        - destruct (side_spoke a Ha r l (prv a j) (prv_lt a Ha j Hv0)) as (_ & K). rewrite (nxt_prv a Ha j Hv0) in K. rewrite K, SA, Esl. fold c. lra.
        - destruct (side_spoke a Ha r l j Hv0) as (K & _). rewrite K, SA, Esl. fold c. lra. }
      exists n. split; [exact En|]. split; [exact N1|]. right; right. split; [exact (RB j Hv0)|]. rewrite DB, <- LZ, <- !Sc, <- Add. exact Hn.
  - intros HX. apply (collect_normals M L' L2 self ts m _ Hw). intros v x q Hx Hq. destruct (proj1 (Hpts q) (nth_error_In _ _ Hq)) as (v0 & Hv0 & Eq). subst q.
    assert (A0 : 0 < INR a * (r * c / sl)) by (apply Rmult_lt_0_compat; [apply lt_0_INR; lia|exact ax0]). assert (L0 : 0 < l / sl) by (apply Rdiv_lt_0_compat; lra).
    pose proof (ksum_apex a Ha r l Hr) as KA. rewrite Esl in KA. fold c in KA.
    destruct (shape_exact M L' W dbg self _ _ _ _ m H Hinj Hcor nor Hnor v0 v x (map lin (kmeet a r l v0)) HX Hv0 Hx Hq) as (En & N1).
    + apply NoDup_map_on; [intros y z _ _; apply (lin_inj A dir HA)|apply (kmeet_NoDup a Ha r l Hr Hl v0 Hv0)].
    + unfold lin. rewrite lin_sum. apply (lin_nonzero A dir HA). destruct v0 as [| |j]; cbn [kv_ok] in Hv0.
      * intros K. injection K as K. lra.
      * rewrite KA. intros K. pose proof (f_equal (fun u => rdot u e_z) K) as K2. cbv beta in K2. rewrite rdot_zero_l in K2. rewrite rdot_scale_l in K2. replace (rdot e_z e_z) with 1 in K2 by (unfold e_z; cbn; ring). lra.
      * rewrite (ksum_rim a Ha r l Hr j Hv0), Esl. fold c. apply rim_sum_ne. apply Rmult_lt_0_compat; lra.
    + intros d. rewrite in_map_iff. split.
      * intros (u & <- & Hu). apply (kmeet_spec a Ha r l v0 Hv0) in Hu as (t & Ht & Hc & ->). exists t. auto.
      * intros (t & Ht & Hc & ->). exists (knor a r l t). split; [reflexivity|exact (Meet v0 t Hv0 Ht Hc)].
    + exists (rdirection (rsum (map lin (kmeet a r l v0)))). split; [exact En|]. split; [exact N1|]. clear En N1. unfold lin. rewrite lin_sum. fold lin. destruct v0 as [| |j]; cbn [kv_ok] in Hv0.
      * left. split; [exact PB|]. rewrite <- LD. replace (rsum (kmeet a r l KC)) with (rscale 1 down) by (unfold down; cbn; unfold rzero; coords). rewrite Sc. apply unit_direction_id; [unfold lin; rewrite (lin_norm A (proj1 HA)); apply down_unit|lra].
      * right; left. split; [exact PT|]. rewrite <- LZ, KA, Sc. apply unit_direction_id; [unfold lin; rewrite (lin_norm A (proj1 HA)); apply ez_unit|exact A0].
      * right; right. split; [exact (RB j Hv0)|]. rewrite DB, (ksum_rim a Ha r l Hr j Hv0), Add, !Sc, LZ. reflexivity.
  - intros k f Hf. destruct (shape_facet M W dbg self _ _ _ _ m H nor Hnor k f Hf) as (t & Ht & En & N1 & Hq). exists (nor t). split; [exact En|]. split; [exact N1|].
    intros i h q Hh Hk Hv. destruct (Hq i h q Hh Hk Hv) as (u & Hu & ->). apply in_map_iff in Ht as (g & <- & Hg). apply ktags_ok in Hg.
    destruct g as [j|j]; cbn in Hg; unfold nor; cbn [ktri knor]; cbn [ktri at_corner] in Hu; pose proof (nxt_lt a Ha j Hg) as Hn.
    + left. split; [exact LD|]. destruct Hu as [-> | [-> | ->]]; [left; exact PB|right; apply RB; assumption|right; apply RB; assumption].
    + right. destruct (side_spoke a Ha r l j Hg) as (K1 & K2). rewrite Esl in K1, K2. fold c in K1, K2. split; [rewrite <- LZ, LR; apply SA|].
      destruct Hu as [-> | [-> | ->]]; [left; exact PT|right; split; [apply RB; assumption|rewrite DB, LR; exact K2]|right; split; [apply RB; assumption|rewrite DB, LR; exact K1]].
Qed.
Print Assumptions C92_cone.

(** ** C92: the cuboid.  At the corner with the coordinates [al], [be], [ga] (each 0 or
    1) the normal is the direction of the sum of the three unit normals of the faces
    that meet there; with any other comparison it still leans towards all three. *)
Theorem C92_cuboid :
  forall (M : R) (L L' : Linal (RS M)) W dbg self SZ (o0 d0 o x y z : vec R 3) (m : mesh (RS M)),
    (36 < W)%nat -> rdot (rcross x y) z <> 0 -> veq_on L (cuboid_corner o x y z : vec (RS M) 3 -> Prop) ->
    mb_cuboid L W dbg self SZ o0 d0 (@mkCuboid (RS M) o x y z) = Ok m ->
    let nx := rdirection (rcross y z) in let ny := rdirection (rcross z x) in let nz := rdirection (rcross x y) in let det := rdot (rcross x y) z in
    let at_corner q al be ga := (al = 0 \/ al = 1) /\ (be = 0 \/ be = 1) /\ (ga = 0 \/ ga = 1) /\ q = cuboid_point o x y z al be ga in
    length (m_points m) = 8%nat /\
    vertex_normals L' self m (fun q n => exists al be ga, at_corner q al be ga /\
      1 <= rdot n (radd (rscale ((2 * al - 1) * (rnorm (rcross y z) / det)) x)
                 (radd (rscale ((2 * be - 1) * (rnorm (rcross z x) / det)) y) (rscale ((2 * ga - 1) * (rnorm (rcross x y) / det)) z)))) /\
    (veq_exact L' -> vertex_normals L' self m (fun q n => exists al be ga, at_corner q al be ga /\
      n = rdirection (radd (rscale (2 * al - 1) nx) (radd (rscale (2 * be - 1) ny) (rscale (2 * ga - 1) nz))))) /\
    facet_normals self m (fun q n => exists al be ga, at_corner q al be ga /\
      (n = rscale (2 * al - 1) nx \/ n = rscale (2 * be - 1) ny \/ n = rscale (2 * ga - 1) nz)).
Proof.
  intros M L L' W dbg self SZ o0 d0 o x y z m HW Hd HG E nx ny nz det corner.
  destruct (cuboid_good M L W dbg self SZ o x y z HW Hd HG) as (m' & E' & H).
  unfold mb_cuboid, cb_build, cb_set_cuboid in E. cbn [cb_cube] in E. rewrite E' in E. cbn [bind] in E. apply Ok_inj in E. subst m'. split; [apply H|].
  set (nor := fun t => bval x y z (bface t)). pose proof (fun u v => bpos_inj o x y z u v Hd) as Hinj.
  assert (Hcor : forall i j k, In (i, j, k) btris -> bv_ok i /\ bv_ok j /\ bv_ok k).
  { intros i j k Hin. rewrite <- !btri_corner, !flat3_In. repeat split; exists i, j, k; auto. }
  pose proof (bval_normal o x y z Hd) as Hnor.
  assert (At : forall v, corner (bpos o x y z v) (bit 0 v) (bit 1 v) (bit 2 v)) by (intros v; repeat split; apply bit_01).
  pose proof H as (_ & _ & Hpts & _ & _ & _ & _ & _ & _ & _ & _ & _ & L2 & ts & Hw).
  assert (Meet : forall v t, bv_ok v -> In t btris -> ProofVertexNear.at_corner v t -> In (nor t) (bmeet x y z v)).
  { intros v t Hv Ht Hc. apply (in_map (bval x y z)). apply (bfaces_spec v (bface t) Hv). exists t. auto. }
  split; [|split].
  - apply (collect_normals M L' L2 self ts m _ Hw). intros v p q Hx Hq. destruct (proj1 (Hpts q) (nth_error_In _ _ Hq)) as (v0 & Hv0 & Eq). subst q.
    destruct (shape_near M L' W dbg self _ _ _ _ m H Hinj Hcor nor Hnor v0 v p (blean x y z (bit 0 v0) (bit 1 v0) (bit 2 v0)) 1 Hv0 Hx Hq) as (n & En & N1 & Hn); [lra| |].
    + intros t Ht Hc. rewrite (blean_dot x y z Hd v0 _ (Meet v0 t Hv0 Ht Hc)). lra.
    + exists n. split; [exact En|]. split; [exact N1|]. exists (bit 0 v0), (bit 1 v0), (bit 2 v0). split; [apply At|exact Hn].
  - intros HX. apply (collect_normals M L' L2 self ts m _ Hw). intros v p q Hx Hq. destruct (proj1 (Hpts q) (nth_error_In _ _ Hq)) as (v0 & Hv0 & Eq). subst q.
    destruct (shape_exact M L' W dbg self _ _ _ _ m H Hinj Hcor nor Hnor v0 v p (bmeet x y z v0) HX Hv0 Hx Hq) as (En & N1).
    + apply (bmeet_NoDup x y z Hd).
    + apply (bsum_ne x y z Hd).
    + intros d. split.
      * intros Hin. apply in_map_iff in Hin as (g & <- & Hg). apply (bfaces_spec v0 g Hv0) in Hg as (t & Ht & Hc & ->). exists t. auto.
      * intros (t & Ht & Hc & ->). exact (Meet v0 t Hv0 Ht Hc).
    + eexists. split; [exact En|]. split; [exact N1|]. exists (bit 0 v0), (bit 1 v0), (bit 2 v0). split; [apply At|]. rewrite bmeet_sum. reflexivity.
  - intros k f Hf. destruct (shape_facet M W dbg self _ _ _ _ m H nor Hnor k f Hf) as (t & Ht & En & N1 & Hq). exists (nor t). split; [exact En|]. split; [exact N1|].
    intros i h q Hh Hk Hv. destruct (Hq i h q Hh Hk Hv) as (u & Hu & ->). exists (bit 0 u), (bit 1 u), (bit 2 u). split; [apply At|].
    assert (Hu0 : bv_ok u) by (destruct t as [[t1 t2] t3]; destruct (Hcor t1 t2 t3 Ht) as (B1 & B2 & B3); destruct Hu as [-> | [-> | ->]]; assumption).
    assert (S : forall i, (if Nat.testbit u i then 1 else -1) = 2 * bit i u - 1) by (intros b; unfold bit; destruct (Nat.testbit u b); ring).
    destruct (Meet u t Hu0 Ht Hu) as [K|[K|[K|[]]]]; rewrite <- K; unfold bval; cbn [fst snd]; rewrite S; [left|right; left|right; right]; reflexivity.
Qed.
Print Assumptions C92_cuboid.

(** a tilted cylinder and cone with 20 segments (the axis of C33's example), a sphere
    with 5 by 7 steps and a sheared box meet the hypotheses, and the vertex normals exist *)
Example C92_example :
  (exists m, mb_sphere xL 256 meq_exact true 7%nat 256 5 7 rzero (@mkSphere (RS 1) (1, (2, (3, tt))) 2) = Ok m /\ length (m_points m) = 30%nat) /\
  (exists m, mb_cylinder xL 256 meq_exact true 7%nat 256 rot_align_ref 20 (@mkCylinder (RS 1) ex_axis 2) = Ok (Some m) /\ length (m_points m) = 42%nat) /\
  (exists m, mb_cone xL 256 meq_exact true 7%nat 256 rot_align_ref 20 (@mkCone (RS 1) ex_axis 2) = Ok (Some m) /\ length (m_points m) = 22%nat) /\
  (exists m, mb_cuboid xL 256 true 7%nat 256 rzero rzero (@mkCuboid (RS 1) rzero (1, (0, (0, tt))) (1, (2, (0, tt))) (1, (1, (3, tt)))) = Ok m /\ length (m_points m) = 8%nat) /\
  veq_exact xL.
Proof.
  set (A := rot_to (@segment_direction (RS 1) 3 ex_axis)). destruct C33_example as (HR & _ & _ & _ & Hlen & Hal & Hon & Hdet).
  assert (L0 : 0 < rdist (g_target ex_axis : vec R 3) (g_source ex_axis)) by (rewrite ex_axis_length; lra).
  split; [|split; [|split; [|split]]].
  - destruct (sphere_mesh 1 xL 256 meq_exact true 7%nat 256 5 7 rzero (1, (2, (3, tt))) 2) as (m & E & H); try lia; try lra; [apply xL_on|]. exists m. split; [exact E|apply H].
  - pose proof (cylinder_mesh 1 xL 256 meq_exact rot_align_ref true 7%nat 256 ex_axis 2 A 20 ltac:(lia) ltac:(lra) L0 Hal ltac:(lia) (Hon _)) as (m & E & H). exists m. split; [exact E|apply H].
  - pose proof (cone_mesh 1 xL HR 256 meq_exact rot_align_ref true 7%nat 256 ex_axis 2 A 20 ltac:(lia) ltac:(lra) L0 Hal ltac:(lia) (fun _ => Hlen) (Hon _)) as (m & E & H). exists m. split; [exact E|apply H].
  - destruct (cuboid_good 1 xL 256 true 7%nat 256 rzero (1, (0, (0, tt))) (1, (2, (0, tt))) (1, (1, (3, tt)))) as (m & E & H); [lia|exact Hdet|apply Hon|]. exists m.
    split; [unfold mb_cuboid, cb_build, cb_set_cuboid; cbn [cb_cube]; rewrite E; reflexivity|apply H].
  - apply (raw_linal_exact 1 0).
Qed.
