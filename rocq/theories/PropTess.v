(** * Property theorems: tessellations (C32-C35, C51, C52) *)

From Coq Require Import List Arith Bool Lia Reals Lra ZArith.
From Verif Require Import Scalar Linal Result SpecReal VecR VecLemmas SpecKdTree ModelShapes ModelTransform SpecTransform
  ModelMesh SpecMesh ModelTess SpecTess ProofTessComb ProofTessSphere ProofTessRound ProofTess ProofTessCuboid ProofTessSafe ProofTessRot.
Import ListNotations.
Local Open Scope nat_scope.

(** the linear algebra of the examples: exact comparisons *)
Definition xL : Linal (RS 1) := raw_linal (RS 1) 0%R.
Lemma xL_R : LinalR xL.
Proof. apply raw_linal_R. lra. Qed.
Lemma xL_on G : veq_on xL (G : vec (RS 1) 3 -> Prop).
Proof. intros p q _ _. apply (raw_linal_exact 1 0%R). Qed.

(** ** C32: the sphere *)

(** The index buffer: its triangles use exactly the points of the point list,
    every directed edge occurs once, and so does its reverse; the Euler
    characteristic is 2. *)
Theorem C32_sphere_indices :
  forall W p a : nat, 2 <= p -> 3 <= a -> (p - 1) * a + 2 < W ->
    let n := (p - 1) * a + 2 in
    let idx := sphere_indices W p a n in
    length idx = 3 * (2 * a * (p - 1)) /\
    (forall k, In k idx <-> k < n) /\
    closed_oriented (buffer_edges idx) /\
    n + 2 * a * (p - 1) = length (edge_pairs (buffer_edges idx)) + 2.
Proof.
  intros W p a Hp Ha HW. cbv zeta. rewrite (sphere_indices_eq p a Hp Ha W) by nia.
  assert (Hc : closed_oriented (buffer_edges (flat3 (map (map3 (senc p a)) (map (ctri p a) (ctags p a)))))).
  { unfold buffer_edges. rewrite triples_flat3, edges_map3. apply closed_map; [|apply ctri_closed; assumption].
    intros u v u' v' H H' E.
    assert (K : forall x y, In (x, y) (flat_map edges3 (map (ctri p a) (ctags p a))) -> sv_ok p a x).
    { intros x y Hxy. apply in_flat_map in Hxy as ([[i j] k] & Ht & Hxy). apply (sphere_corner p a Hp Ha).
      apply flat3_In. exists i, j, k. split; [exact Ht|]. cbn in Hxy.
      destruct Hxy as [E1|[E1|[E1|[]]]]; injection E1 as <- <-; auto. }
    apply (senc_inj p a Hp Ha); eauto. }
  split; [rewrite flat3_length, !map_length, ctags_length by assumption; reflexivity|].
  split; [|split; [exact Hc|]].
  - intros k. split.
    + intros H. apply flat3_In in H as (x & y & z & Ht & H). apply in_map_iff in Ht as ([[u v] w] & E & Ht). injection E as <- <- <-.
      assert (K : sv_ok p a u /\ sv_ok p a v /\ sv_ok p a w)
        by (repeat split; apply (sphere_corner p a Hp Ha), flat3_In; exists u, v, w; auto).
      destruct H as [->|[->| ->]]; apply (senc_lt p a Hp Ha), K.
    + intros H. apply (senc_surj p a Hp Ha) in H as (v & Hv & <-). apply (sphere_corner p a Hp Ha), flat3_In in Hv as (x & y & z & Ht & H).
      apply flat3_In. exists (senc p a x), (senc p a y), (senc p a z). split; [|intuition congruence].
      apply in_map_iff. exists (x, y, z). auto.
  - pose proof (closed_edge_pairs _ Hc) as E. unfold buffer_edges in E at 1. rewrite triples_flat3 in E.
    rewrite (flat_map_length_const _ 3) in E by (intros [[? ?] ?] _; reflexivity).
    rewrite !map_length, ctags_length in E by assumption. unfold buffer_edges. rewrite triples_flat3.
    unfold buffer_edges in E. rewrite triples_flat3 in E. nia.
Qed.
Print Assumptions C32_sphere_indices.

(** The mesh: for exact reals and an [operator==] that is exact on the points of
    the grid, the origin of the sphere and zero. *)
Theorem C32_sphere_mesh :
  forall (M : R) (L : Linal (RS M)) W meq dbg self SZ (p a : nat) (o0 o : vec R 3) (r : R),
    2 <= p -> 3 <= a -> 6 * a * (p - 1) < W -> (0 < r)%R ->
    veq_on L ((fun q => sphere_grid p a o r q \/ q = o \/ q = rzero) : vec (RS M) 3 -> Prop) ->
    exists m, mb_sphere L W meq dbg self SZ p a o0 (@mkSphere (RS M) o r) = Ok m /\
      (forall q, In q (m_points m) <-> sphere_grid p a o r q) /\
      (forall q, In q (m_points m) -> on_sphere o r q) /\
      NoDup (m_points m) /\
      length (m_points m) = (p - 1) * a + 2 /\ length (m_vertices m) = (p - 1) * a + 2 /\
      length (m_halfedges m) = 6 * a * (p - 1) /\ length (m_facets m) = 2 * a * (p - 1) /\
      2 * (length (m_vertices m) + length (m_facets m)) = length (m_halfedges m) + 4 /\
      mesh_is_valid W dbg (only self m) m = Ok true /\ closed_mesh m /\ facets_have_corners m.
Proof.
  intros M L W meq dbg self SZ p a o0 o r Hp Ha HW Hr HG.
  destruct (sphere_mesh M L W meq dbg self SZ p a o0 o r Hp Ha HW Hr HG) as (m & E & Hv & Hc & Hpt & Hnd & N1 & N2 & N3 & N4 & _ & _ & Hfc & _).
  exists m. split; [exact E|]. rewrite map_length, ctags_length in N3, N4 by assumption.
  assert (Hq : forall q, In q (m_points m) <-> sphere_grid p a o r q).
  { intros q. rewrite Hpt. symmetry. apply (spos_grid p a Hp Ha o r q). }
  split; [exact Hq|]. split; [intros q H; apply (spos_on_sphere p a o r Hr), Hq, H|].
  repeat (split; [first [assumption|nia]|]). assumption.
Qed.
Print Assumptions C32_sphere_mesh.

Example C32_example :
  2 <= 5 /\ 3 <= 7 /\ 6 * 7 * (5 - 1) < 256 /\ (0 < 2)%R /\
  veq_on xL ((fun q => sphere_grid 5 7 (1, (2, (3, tt)))%R 2 q \/ q = (1, (2, (3, tt)))%R \/ q = rzero) : vec (RS 1) 3 -> Prop) /\
  length (sphere_indices 256 5 7 30) = 168.
Proof.
  split; [lia|]. split; [lia|]. split; [lia|]. split; [lra|]. split; [apply xL_on|vm_compute; reflexivity].
Qed.

(** ** C34: facets of the sphere point outwards *)
Theorem C34_sphere_outward :
  forall (M : R) (L : Linal (RS M)) W meq dbg self SZ (p a : nat) (o0 o : vec R 3) (r : R) (m : mesh (RS M)),
    2 <= p -> 3 <= a -> 6 * a * (p - 1) < W -> (0 < r)%R ->
    veq_on L ((fun q => sphere_grid p a o r q \/ q = o \/ q = rzero) : vec (RS M) 3 -> Prop) ->
    mb_sphere L W meq dbg self SZ p a o0 (@mkSphere (RS M) o r) = Ok m ->
    outward self m o.
Proof.
  intros M L W meq dbg self SZ p a o0 o r m Hp Ha HW Hr HG E.
  destruct (sphere_mesh M L W meq dbg self SZ p a o0 o r Hp Ha HW Hr HG) as (m' & E' & H).
  rewrite E in E'. apply Ok_inj in E'. subst m'. apply H. intros x y z Hin.
  apply (ctri_away p a Hp Ha o r Hr x y z Hin).
Qed.
Print Assumptions C34_sphere_outward.

Example C34_example : exists m,
  mb_sphere xL 256 meq_exact true 7 256 5 7 rzero (@mkSphere (RS 1) (1, (2, (3, tt)))%R 2%R) = Ok m /\
  length (m_facets m) = 56.
Proof.
  destruct (C32_sphere_mesh 1 xL 256 meq_exact true 7 256 5 7 rzero (1, (2, (3, tt)))%R 2%R) as (m & E & _ & _ & _ & _ & _ & _ & F & _);
    try lia; try lra; try apply xL_on. exists m. split; [exact E|exact F].
Qed.

(** ** C33: cone, cylinder, cuboid *)

Theorem C33_cone_indices :
  forall (S : Scalar) (W a : nat) (c : cone S), 3 <= a -> a + 2 < W ->
    exists pts idx, cone_triangles W a c = Ok (pts, idx) /\
      length pts = a + 2 /\ length idx = 3 * (2 * a) /\ (forall k, In k idx <-> k < a + 2) /\
      closed_oriented (buffer_edges idx) /\ (a + 2) + 2 * a = length (edge_pairs (buffer_edges idx)) + 2.
Proof.
  intros S W a c Ha HW. destruct (cone_triangles_eq W a c HW) as (pts & E & Ep). do 2 eexists. split; [exact E|].
  assert (Hc : closed_oriented (buffer_edges (flat3 (map (map3 (kenc a)) (map (ktri a) (ktags a)))))).
  { unfold buffer_edges. rewrite triples_flat3, edges_map3. apply closed_map; [|apply ktri_closed; assumption].
    intros u v u' v' H H' E'.
    assert (K : forall x y, In (x, y) (flat_map edges3 (map (ktri a) (ktags a))) -> kv_ok a x).
    { intros x y Hxy. apply in_flat_map in Hxy as ([[i j] k] & Ht & Hxy). apply (cone_corner a Ha).
      apply flat3_In. exists i, j, k. split; [exact Ht|]. cbn in Hxy.
      destruct Hxy as [E1|[E1|[E1|[]]]]; injection E1 as <- <-; auto. }
    apply (kenc_inj a); eauto. }
  split; [rewrite Ep, app_length, circle_points_length; cbn [length]; lia|].
  split; [rewrite flat3_length, !map_length, ktags_length; reflexivity|].
  split; [|split; [exact Hc|]].
  - intros k. split.
    + intros H. apply flat3_In in H as (x & y & z & Ht & H). apply in_map_iff in Ht as ([[u v] w] & E' & Ht). injection E' as <- <- <-.
      assert (K : kv_ok a u /\ kv_ok a v /\ kv_ok a w)
        by (repeat split; apply (cone_corner a Ha), flat3_In; exists u, v, w; auto).
      destruct H as [->|[->| ->]]; apply (kenc_lt a), K.
    + intros H. apply (kenc_surj a) in H as (v & Hv & <-). apply (cone_corner a Ha), flat3_In in Hv as (x & y & z & Ht & H).
      apply flat3_In. exists (kenc a x), (kenc a y), (kenc a z). split; [|intuition congruence].
      apply in_map_iff. exists (x, y, z). auto.
  - pose proof (closed_edge_pairs _ Hc) as E'. unfold buffer_edges in *. rewrite triples_flat3 in *.
    rewrite (flat_map_length_const _ 3) in E' by (intros [[? ?] ?] _; reflexivity).
    rewrite !map_length, ktags_length in E'. lia.
Qed.
Print Assumptions C33_cone_indices.

Theorem C33_cylinder_indices :
  forall (S : Scalar) (W : nat) (dbg : bool) (a : nat) (c : cylinder S), 3 <= a -> 2 * a + 2 < W ->
    exists pts idx, cylinder_triangles W dbg a c = Ok (pts, idx) /\
      length pts = 2 * a + 2 /\ length idx = 3 * (4 * a) /\ (forall k, In k idx <-> k < 2 * a + 2) /\
      closed_oriented (buffer_edges idx) /\ (2 * a + 2) + 4 * a = length (edge_pairs (buffer_edges idx)) + 2.
Proof.
  intros S W dbg a c Ha HW. destruct (cylinder_triangles_eq W dbg a c ltac:(lia) HW) as (pts & E & Ep). do 2 eexists. split; [exact E|].
  assert (Hc : closed_oriented (buffer_edges (flat3 (map (map3 (yenc a)) (map (ytri a) (ytags a)))))).
  { unfold buffer_edges. rewrite triples_flat3, edges_map3. apply closed_map; [|apply ytri_closed; assumption].
    intros u v u' v' H H' E'.
    assert (K : forall x y, In (x, y) (flat_map edges3 (map (ytri a) (ytags a))) -> yv_ok a x).
    { intros x y Hxy. apply in_flat_map in Hxy as ([[i j] k] & Ht & Hxy). apply (cyl_corner a Ha).
      apply flat3_In. exists i, j, k. split; [exact Ht|]. cbn in Hxy.
      destruct Hxy as [E1|[E1|[E1|[]]]]; injection E1 as <- <-; auto. }
    apply (yenc_inj a); eauto. }
  split; [rewrite Ep, app_length, !circle_points_length; lia|].
  split; [rewrite flat3_length, !map_length, ytags_length; reflexivity|].
  split; [|split; [exact Hc|]].
  - intros k. split.
    + intros H. apply flat3_In in H as (x & y & z & Ht & H). apply in_map_iff in Ht as ([[u v] w] & E' & Ht). injection E' as <- <- <-.
      assert (K : yv_ok a u /\ yv_ok a v /\ yv_ok a w)
        by (repeat split; apply (cyl_corner a Ha), flat3_In; exists u, v, w; auto).
      destruct H as [->|[->| ->]]; apply (yenc_lt a), K.
    + intros H. apply (yenc_surj a) in H as (v & Hv & <-). apply (cyl_corner a Ha), flat3_In in Hv as (x & y & z & Ht & H).
      apply flat3_In. exists (yenc a x), (yenc a y), (yenc a z). split; [|intuition congruence].
      apply in_map_iff. exists (x, y, z). auto.
  - pose proof (closed_edge_pairs _ Hc) as E'. unfold buffer_edges in *. rewrite triples_flat3 in *.
    rewrite (flat_map_length_const _ 3) in E' by (intros [[? ?] ?] _; reflexivity).
    rewrite !map_length, ytags_length in E'. lia.
Qed.
Print Assumptions C33_cylinder_indices.

(** The meshes, placed in space.  The rotation comes from the linear algebra
    library; [aligned] says what is expected of it. *)
Theorem C33_cone_mesh :
  forall (M : R) (L : Linal (RS M)) W meq rot_align dbg self SZ (s : segment (RS M) 3) (r : R) (A : vec (vec R 3) 3) (a : nat),
    let src := g_source s : vec R 3 in
    let tgt := g_target s : vec R 3 in
    LinalR L -> 3 <= a -> 6 * a < W -> (0 < r)%R -> (0 < rdist tgt src)%R -> (dbg = true -> (leps L < rdist tgt src)%R) ->
    aligned rot_align meq s A ->
    veq_on L ((fun q => q = src \/ q = tgt \/ rim a A src r q) : vec (RS M) 3 -> Prop) ->
    exists m, mb_cone L W meq dbg self SZ rot_align a (@mkCone (RS M) s r) = Ok (Some m) /\
      (forall q, In q (m_points m) <-> q = src \/ q = tgt \/ rim a A src r q) /\
      (forall q, rim a A src r q -> on_circle src r (rsub tgt src) q) /\
      NoDup (m_points m) /\
      length (m_points m) = a + 2 /\ length (m_vertices m) = a + 2 /\
      length (m_halfedges m) = 6 * a /\ length (m_facets m) = 2 * a /\
      mesh_is_valid W dbg (only self m) m = Ok true /\ closed_mesh m /\ facets_have_corners m.
Proof.
  intros M L W meq rot_align dbg self SZ s r A a src tgt HL Ha HW Hr Hl Hd Hal HG.
  destruct (cone_mesh M L HL W meq rot_align dbg self SZ s r A a Ha Hr Hl Hal HW Hd HG)
    as (m & E & Hv & Hc & Hpt & Hnd & N1 & N2 & N3 & N4 & _ & _ & Hfc & _).
  exists m. split; [exact E|]. rewrite map_length, ktags_length in N3, N4.
  split; [intros q; rewrite Hpt; symmetry; exact (kworld_grid M meq rot_align s r A a Hl Hal q)|].
  split; [intros q Hq; exact (rim_on_circle M s A a r q src Hr Hl (proj1 Hal) Hq)|].
  repeat (split; [first [assumption|lia]|]). assumption.
Qed.
Print Assumptions C33_cone_mesh.

Theorem C33_cylinder_mesh :
  forall (M : R) (L : Linal (RS M)) W meq rot_align dbg self SZ (s : segment (RS M) 3) (r : R) (A : vec (vec R 3) 3) (a : nat),
    let src := g_source s : vec R 3 in
    let tgt := g_target s : vec R 3 in
    3 <= a -> 12 * a < W -> (0 < r)%R -> (0 < rdist tgt src)%R ->
    aligned rot_align meq s A ->
    veq_on L ((fun q => q = src \/ q = tgt \/ rim a A src r q \/ rim a A tgt r q) : vec (RS M) 3 -> Prop) ->
    exists m, mb_cylinder L W meq dbg self SZ rot_align a (@mkCylinder (RS M) s r) = Ok (Some m) /\
      (forall q, In q (m_points m) <-> q = src \/ q = tgt \/ rim a A src r q \/ rim a A tgt r q) /\
      (forall c q, rim a A c r q -> on_circle c r (rsub tgt src) q) /\
      NoDup (m_points m) /\
      length (m_points m) = 2 * a + 2 /\ length (m_vertices m) = 2 * a + 2 /\
      length (m_halfedges m) = 12 * a /\ length (m_facets m) = 4 * a /\
      mesh_is_valid W dbg (only self m) m = Ok true /\ closed_mesh m /\ facets_have_corners m.
Proof.
  intros M L W meq rot_align dbg self SZ s r A a src tgt Ha HW Hr Hl Hal HG.
  destruct (cylinder_mesh M L W meq rot_align dbg self SZ s r A a Ha Hr Hl Hal HW HG)
    as (m & E & Hv & Hc & Hpt & Hnd & N1 & N2 & N3 & N4 & _ & _ & Hfc & _).
  exists m. split; [exact E|]. rewrite map_length, ytags_length in N3, N4.
  split; [intros q; rewrite Hpt; symmetry; exact (yworld_grid M meq rot_align s r A a Hl Hal q)|].
  split; [intros c q Hq; exact (rim_on_circle M s A a r q c Hr Hl (proj1 Hal) Hq)|].
  repeat (split; [first [assumption|lia]|]). assumption.
Qed.
Print Assumptions C33_cylinder_mesh.

Theorem C33_cuboid_mesh :
  forall (M : R) (L : Linal (RS M)) W dbg self SZ (o0 d0 o x y z : vec R 3),
    36 < W -> rdot (rcross x y) z <> 0%R ->
    veq_on L (cuboid_corner o x y z : vec (RS M) 3 -> Prop) ->
    exists m, mb_cuboid L W dbg self SZ o0 d0 (@mkCuboid (RS M) o x y z) = Ok m /\
      (forall q, In q (m_points m) <-> cuboid_corner o x y z q) /\ NoDup (m_points m) /\
      length (m_points m) = 8 /\ length (m_vertices m) = 8 /\ length (m_halfedges m) = 36 /\ length (m_facets m) = 12 /\
      mesh_is_valid W dbg (only self m) m = Ok true /\ closed_mesh m /\ facets_have_corners m.
Proof.
  intros M L W dbg self SZ o0 d0 o x y z HW Hd HG.
  destruct (cuboid_good M L W dbg self SZ o x y z HW Hd HG) as (m & E & Hv & Hc & Hpt & Hnd & N1 & N2 & N3 & N4 & _ & _ & Hfc & _).
  exists m. unfold mb_cuboid, cb_build, cb_set_cuboid. cbn [cb_cube]. rewrite E. split; [reflexivity|].
  split; [intros q; rewrite Hpt; symmetry; apply bpos_corner|].
  repeat (split; [first [assumption|exact N3|exact N4]|]). assumption.
Qed.
Print Assumptions C33_cuboid_mesh.

(** non-vacuity: an oblique axis and the rotation of ProofTessRot *)
Definition ex_axis : segment (RS 1) 3 := @mkSegment (RS 1) 3 (1, (2, (3, tt)))%R (4, (6, (3, tt)))%R.
Lemma ex_axis_length : rdist (g_target ex_axis : vec R 3) (g_source ex_axis) = 5%R.
Proof.
  unfold rdist, rnorm. cbn. transitivity (sqrt (Rsqr 5)); [f_equal; unfold Rsqr; lra|apply sqrt_Rsqr; lra].
Qed.
Lemma ex_aligned : aligned rot_align_ref meq_exact ex_axis (rot_to (@segment_direction (RS 1) 3 ex_axis)).
Proof.
  apply aligned_ref; [rewrite ex_axis_length; lra|]. rewrite direction_R, ex_axis_length. cbn. intros E.
  injection E as _ _ E. lra.
Qed.
Example C33_example :
  let A := rot_to (@segment_direction (RS 1) 3 ex_axis) in
  LinalR xL /\ 3 <= 20 /\ 12 * 20 < 256 /\ (0 < 2)%R /\ (leps xL < rdist (g_target ex_axis : vec R 3) (g_source ex_axis))%R /\
  aligned rot_align_ref meq_exact ex_axis A /\ (forall G, veq_on xL (G : vec (RS 1) 3 -> Prop)) /\
  (rdot (rcross (1, (0, (0, tt))) (1, (2, (0, tt)))) (1, (1, (3, tt))) <> 0)%R.
Proof.
  cbv zeta. split; [exact xL_R|]. split; [lia|]. split; [lia|]. split; [lra|]. split; [rewrite ex_axis_length; cbn; lra|].
  split; [exact ex_aligned|]. split; [exact xL_on|]. cbn. lra.
Qed.

(** ** C52: facets of cone, cylinder and cuboid *)

(** seen from every inner point of the axis *)
Theorem C52_cone_outward :
  forall (M : R) (L : Linal (RS M)) W meq rot_align dbg self SZ (s : segment (RS M) 3) (r : R) (A : vec (vec R 3) 3) (a : nat)
         (m : mesh (RS M)) (t : R),
    let src := g_source s : vec R 3 in
    let tgt := g_target s : vec R 3 in
    LinalR L -> 3 <= a -> 6 * a < W -> (0 < r)%R -> (0 < rdist tgt src)%R -> (dbg = true -> (leps L < rdist tgt src)%R) ->
    aligned rot_align meq s A ->
    veq_on L ((fun q => q = src \/ q = tgt \/ rim a A src r q) : vec (RS M) 3 -> Prop) ->
    mb_cone L W meq dbg self SZ rot_align a (@mkCone (RS M) s r) = Ok (Some m) ->
    (0 < t < 1)%R -> outward self m (along src (rsub tgt src) t).
Proof.
  intros M L W meq rot_align dbg self SZ s r A a m t src tgt HL Ha HW Hr Hl Hd Hal HG E Ht.
  destruct (cone_mesh M L HL W meq rot_align dbg self SZ s r A a Ha Hr Hl Hal HW Hd HG) as (m' & E' & H).
  rewrite E in E'. injection E' as <-.
  exact (cone_outward M W meq rot_align dbg self s r A a Ha Hr Hl Hal m _ H t Ht).
Qed.
Print Assumptions C52_cone_outward.

Theorem C52_cylinder_outward :
  forall (M : R) (L : Linal (RS M)) W meq rot_align dbg self SZ (s : segment (RS M) 3) (r : R) (A : vec (vec R 3) 3) (a : nat)
         (m : mesh (RS M)) (t : R),
    let src := g_source s : vec R 3 in
    let tgt := g_target s : vec R 3 in
    3 <= a -> 12 * a < W -> (0 < r)%R -> (0 < rdist tgt src)%R ->
    aligned rot_align meq s A ->
    veq_on L ((fun q => q = src \/ q = tgt \/ rim a A src r q \/ rim a A tgt r q) : vec (RS M) 3 -> Prop) ->
    mb_cylinder L W meq dbg self SZ rot_align a (@mkCylinder (RS M) s r) = Ok (Some m) ->
    (0 < t < 1)%R -> outward self m (along src (rsub tgt src) t).
Proof.
  intros M L W meq rot_align dbg self SZ s r A a m t src tgt Ha HW Hr Hl Hal HG E Ht.
  destruct (cylinder_mesh M L W meq rot_align dbg self SZ s r A a Ha Hr Hl Hal HW HG) as (m' & E' & H).
  rewrite E in E'. injection E' as <-.
  exact (cylinder_outward M W meq rot_align dbg self s r A a Ha Hr Hl Hal m _ H t Ht).
Qed.
Print Assumptions C52_cylinder_outward.

(** right-handed sides: outwards, seen from every inner point; left-handed
    sides: inwards *)
Theorem C52_cuboid_outward :
  forall (M : R) (L : Linal (RS M)) W dbg self SZ (o0 d0 o x y z : vec R 3) (m : mesh (RS M)) (c : vec R 3),
    36 < W -> (0 < rdot (rcross x y) z)%R ->
    veq_on L (cuboid_corner o x y z : vec (RS M) 3 -> Prop) ->
    mb_cuboid L W dbg self SZ o0 d0 (@mkCuboid (RS M) o x y z) = Ok m ->
    cuboid_inside o x y z c -> outward self m c.
Proof.
  intros M L W dbg self SZ o0 d0 o x y z m c HW Hd HG E Hc.
  destruct (cuboid_good M L W dbg self SZ o x y z HW ltac:(lra) HG) as (m' & E' & H).
  unfold mb_cuboid, cb_build, cb_set_cuboid in E. cbn [cb_cube] in E. rewrite E' in E. cbn [bind] in E. apply Ok_inj in E. subst m'.
  exact (cuboid_outward M W dbg self o x y z m _ Hd H c Hc).
Qed.
Print Assumptions C52_cuboid_outward.

Theorem C52_cuboid_inward :
  forall (M : R) (L : Linal (RS M)) W dbg self SZ (o0 d0 o x y z : vec R 3) (m : mesh (RS M)) (c : vec R 3),
    36 < W -> (rdot (rcross x y) z < 0)%R ->
    veq_on L (cuboid_corner o x y z : vec (RS M) 3 -> Prop) ->
    mb_cuboid L W dbg self SZ o0 d0 (@mkCuboid (RS M) o x y z) = Ok m ->
    cuboid_inside o x y z c -> inward self m c.
Proof.
  intros M L W dbg self SZ o0 d0 o x y z m c HW Hd HG E Hc.
  destruct (cuboid_good M L W dbg self SZ o x y z HW ltac:(lra) HG) as (m' & E' & H).
  unfold mb_cuboid, cb_build, cb_set_cuboid in E. cbn [cb_cube] in E. rewrite E' in E. cbn [bind] in E. apply Ok_inj in E. subst m'.
  exact (cuboid_inward M W dbg self o x y z m _ Hd H c Hc).
Qed.
Print Assumptions C52_cuboid_inward.

(** hence not every cuboid given by its diagonal is oriented outwards *)
Theorem C52_cuboid_refuted :
  exists (d : vec R 3) (m : mesh (RS 1)),
    let c := cuboid_diag (rzero : vec (RS 1) 3) (d : vec (RS 1) 3) in
    mb_cuboid xL 256 true 7 256 rzero d c = Ok m /\
    cuboid_inside (cu_origin c) (cu_x c) (cu_y c) (cu_z c) (rscale (1 / 2) d) /\
    inward 7 m (rscale (1 / 2) d) /\ ~ outward 7 m (rscale (1 / 2) d).
Proof.
  exists (1, (1, (-1, tt)))%R.
  set (d := (1, (1, (-1, tt)))%R : vec R 3).
  assert (Ec : cuboid_diag (rzero : vec (RS 1) 3) (d : vec (RS 1) 3) =
               @mkCuboid (RS 1) rzero (1, (0, (0, tt)))%R (0, (1, (0, tt)))%R (0, (0, (-1, tt)))%R).
  { unfold cuboid_diag. f_equal; unfold projection, unitX, unitY, unitZ; cbn; repeat (apply f_equal2; [field|]); reflexivity. }
  rewrite Ec.
  destruct (C33_cuboid_mesh 1 xL 256 true 7 256 rzero d rzero (1, (0, (0, tt)))%R (0, (1, (0, tt)))%R (0, (0, (-1, tt)))%R) as (m & E & _ & _ & _ & _ & _ & F & _ & _ & Hfc).
  - lia.
  - cbn. lra.
  - apply xL_on.
  - exists m. cbn [cu_origin cu_x cu_y cu_z]. cbv zeta. split; [exact E|].
    assert (Hin : (cuboid_inside rzero (1, (0, (0, tt))) (0, (1, (0, tt))) (0, (0, (-1, tt))) (rscale (1 / 2) d))%R).
    { exists (1 / 2)%R, (1 / 2)%R, (1 / 2)%R. do 3 (split; [lra|]). unfold d. cbn. repeat (apply f_equal2; [lra|]). reflexivity. }
    split; [exact Hin|].
    assert (Hi : inward 7 m (rscale (1 / 2) d)).
    { eapply C52_cuboid_inward; [| |apply xL_on|exact E|exact Hin]; [lia|cbn; lra]. }
    split; [exact Hi|]. intros Ho.
    destruct (nth_error (m_facets m) 0) as [f|] eqn:Ef; [|apply nth_error_None in Ef; rewrite F in Ef; lia].
    destruct (Hi 0 f Ef) as (n & En & _ & K1). destruct (Ho 0 f Ef) as (n' & En' & _ & K2).
    rewrite En in En'. apply Ok_inj in En'. subst n'.
    destruct (Hfc 0 ltac:(rewrite F; lia)) as (i & h & q & Eh & Ek & Eq).
    specialize (K1 i h q Eh Ek Eq). specialize (K2 i h q Eh Ek Eq). lra.
Qed.
Print Assumptions C52_cuboid_refuted.

(** ** C35: no undefined behaviour *)

(** For every scalar type (so also for floating point numbers, infinities and
    NaNs), every [operator==], every matrix returned by the linear algebra
    library and every shape: once the counts reach the stated minimum, building
    either returns or fails a GEO_ASSERT. *)
Theorem C35_sphere_safe :
  forall (S : Scalar) (L : Linal S) W meq dbg self SZ (p a : nat) o (s : sphere S),
    2 <= p -> 1 <= a -> 6 * a * (p - 1) < W ->
    returns_or_asserts dbg (mb_sphere L W meq dbg self SZ p a o s).
Proof. intros. apply sphere_safe; assumption. Qed.
Print Assumptions C35_sphere_safe.

Theorem C35_cone_safe :
  forall (S : Scalar) (L : Linal S) W meq dbg self SZ rot_align (a : nat) (c : cone S),
    6 * a + 2 < W -> returns_or_asserts dbg (mb_cone L W meq dbg self SZ rot_align a c).
Proof. intros. apply cone_safe; assumption. Qed.
Print Assumptions C35_cone_safe.

Theorem C35_cylinder_safe :
  forall (S : Scalar) (L : Linal S) W meq dbg self SZ rot_align (a : nat) (c : cylinder S),
    2 <= a -> 12 * a < W -> returns_or_asserts dbg (mb_cylinder L W meq dbg self SZ rot_align a c).
Proof. intros. apply cylinder_safe; assumption. Qed.
Print Assumptions C35_cylinder_safe.

Theorem C35_cuboid_safe :
  forall (S : Scalar) (L : Linal S) W dbg self SZ o d (c : cuboid S),
    36 < W -> returns_or_asserts dbg (mb_cuboid L W dbg self SZ o d c).
Proof.
  intros S L W dbg self SZ o d c HW. unfold mb_cuboid, cb_build, cb_set_cuboid. cbn [cb_cube].
  destruct (cuboid_safe L W dbg self SZ c HW) as [(m & ->)|(-> & ->)]; [left; eexists; reflexivity|right; auto].
Qed.
Print Assumptions C35_cuboid_safe.

(** Below the minimum the index lists point past the end of the point lists,
    which are read without any check, in debug and in release builds. *)
Theorem C35_sphere_refuted :
  forall (S : Scalar) (L : Linal S) W meq dbg self SZ (p a : nat) o (s : sphere S),
    8 <= W -> p < W -> a < W -> p < 2 \/ a = 0 -> (p - 1) * a + 2 < W ->
    mb_sphere L W meq dbg self SZ p a o s = UB.
Proof. intros. apply sphere_ub; assumption. Qed.
Print Assumptions C35_sphere_refuted.

Theorem C35_cylinder_refuted :
  forall (S : Scalar) (L : Linal S) W meq dbg self SZ rot_align (a : nat) (c : cylinder S),
    16 <= W -> a < 2 -> mb_cylinder L W meq dbg self SZ rot_align a c = UB.
Proof. intros. apply cylinder_ub; assumption. Qed.
Print Assumptions C35_cylinder_refuted.

(** With the largest count of the index type the loops over the circle never
    end (e.g. 255 for an 8 bit index type). *)
Theorem C35_circle_loops_refuted :
  forall (S : Scalar) (L : Linal S) W meq self SZ rot_align (k : cone S) (c : cylinder S), 3 <= W ->
    mb_cone L W meq false self SZ rot_align (W - 1) k = Diverge /\
    (forall dbg, mb_cylinder L W meq dbg self SZ rot_align (W - 1) c = Diverge).
Proof.
  intros S L W meq self SZ rot_align k c HW.
  assert (E : circle_indices W (W - 1) 0 = Diverge).
  { unfold circle_indices, usub. rewrite (Nat.mod_small (0 + 1) W) by lia. cbv zeta.
    replace ((0 + 1 + (W - 1) + (W - 1)) mod W) with (W - 1); [rewrite Nat.eqb_refl; reflexivity|].
    replace (0 + 1 + (W - 1) + (W - 1)) with (W - 1 + 1 * W) by lia. rewrite Nat.mod_add, Nat.mod_small by lia. reflexivity. }
  split; [|intros dbg]; unfold mb_cone, mb_cylinder, cone_build, cylinder_build, cone_triangles, cylinder_triangles;
    rewrite (Nat.mod_small (W - 1) W) by lia; cbv zeta; rewrite E.
  - reflexivity.
  - destruct dbg; reflexivity.
Qed.
Print Assumptions C35_circle_loops_refuted.

(** the hypotheses of all of these can be met, with 16 bit and 8 bit index types *)
Example C35_example :
  2 <= 10 /\ 1 <= 20 /\ 6 * 20 * (10 - 1) < 64 * 1024 /\ 6 * 20 + 2 < 64 * 1024 /\ 12 * 20 < 64 * 1024 /\
  (8 <= 256 /\ 1 < 256 /\ 20 < 256 /\ 1 < 2 /\ (1 - 1) * 20 + 2 < 256) /\
  (forall dbg o s, mb_sphere xL 256 meq_exact dbg 7 256 1 20 o s = UB) /\
  (forall dbg c, mb_cylinder xL 256 meq_exact dbg 7 256 rot_align_ref 1 c = UB).
Proof.
  repeat (split; [lia|]). split.
  - intros dbg o s. apply C35_sphere_refuted; lia.
  - intros dbg c. apply C35_cylinder_refuted; lia.
Qed.

(** ** C51: what a builder was told last is what it builds *)

Section Calls.
  Context {S : Scalar} (L : Linal S) (W : nat) (meq : hmat S -> hmat S -> bool) (dbg : bool) (self : addr) (SZ : nat).

  (** a call on the builder of the model *)
  Definition sphere_step (b : sphere_builder S) (x : sphere_call S) : res (sphere_builder S) :=
    match x with
    | SetPolar c => Ok (sb_set_polar W b c)
    | SetAzimuth c => Ok (sb_set_azimuth W b c)
    | SetSphere s => Ok (sb_set_sphere b s)
    | SetOrigin o => Ok (sb_set_origin b o)
    | SetRadius r => Ok (sb_set_radius b r)
    | Build => let* (b', _) := sb_build L W meq dbg self SZ b in Ok b'
    end.
End Calls.

(** the configuration a builder holds *)
Lemma sphere_run :
  forall (S : Scalar) (L : Linal S) W meq dbg self SZ o0 (xs : list (sphere_call S)) b,
    20 < W ->
    foldM (sphere_step L W meq dbg self SZ) xs (sb_init o0) = Ok b ->
    let c := fold_left configure xs (mkConfig 10 20 o0 s1) in
    sb_polar b = cf_polar c mod W /\ sb_azimuth b = cf_azimuth c mod W /\
    match sb_sphere b with Some s => s | None => mkSphere (sb_origin b) (sb_radius b) end = mkSphere (cf_origin c) (cf_radius c).
Proof.
  intros S L W meq dbg self SZ o0 xs b HW H. cbv zeta.
  set (R := fun (b : sphere_builder S) (c : sphere_config S) =>
    sb_polar b = cf_polar c mod W /\ sb_azimuth b = cf_azimuth c mod W /\
    match sb_sphere b with Some s => s | None => mkSphere (sb_origin b) (sb_radius b) end = mkSphere (cf_origin c) (cf_radius c)).
  assert (HR : forall xs b c b', R b c -> foldM (sphere_step L W meq dbg self SZ) xs b = Ok b' -> R b' (fold_left configure xs c)).
  { clear. induction xs as [|x xs IH]; intros b c b' HR H; [cbn in H; apply Ok_inj in H; subst; exact HR|].
    cbn [foldM fold_left] in *. destruct (sphere_step L W meq dbg self SZ b x) as [b1| | | |] eqn:E; try discriminate.
    cbn [bind] in H. apply (IH b1 _ b'); [|exact H]. destruct HR as (H1 & H2 & H3).
    destruct x; cbn [sphere_step] in E;
      try (apply Ok_inj in E; subst b1; unfold R; cbn [configure cf_polar cf_azimuth cf_origin cf_radius];
           unfold sb_set_polar, sb_set_azimuth, sb_set_sphere, sb_set_origin, sb_set_radius;
           destruct (sb_sphere b) as [s'|]; cbn [sb_polar sb_azimuth sb_sphere sb_origin sb_radius];
           (split; [first [reflexivity|assumption]|split; [first [reflexivity|assumption]|]]);
           first [assumption|injection H3 as ? ?; subst; cbn; congruence
                 |destruct s; reflexivity|destruct s'; injection H3 as ? ?; subst; reflexivity|reflexivity]).
    unfold sb_build in E. cbv zeta in E.
    destruct (build_mesh _ _ _ _ _ _ _ _ _) as [m| | | |]; try discriminate. cbn [bind] in E. apply Ok_inj in E. subst b1.
    unfold R. cbn [sb_polar sb_azimuth sb_sphere sb_origin sb_radius configure]. auto. }
  assert (H0 : R (sb_init o0) (mkConfig 10 20 o0 s1)).
  { unfold R. cbn [sb_init sb_polar sb_azimuth sb_sphere sb_origin sb_radius cf_polar cf_azimuth cf_origin cf_radius].
    rewrite !Nat.mod_small by lia. auto. }
  exact (HR xs _ _ _ H0 H).
Qed.

(** After any calls, [build] returns what a fresh builder returns when it is
    given the configuration the calls stand for.  Initially: 10, 20, the origin
    left by the default constructor, radius 1. *)
Theorem C51_sphere_builder :
  forall (S : Scalar) (L : Linal S) W meq dbg self SZ o0 o1 (xs : list (sphere_call S)) b,
    20 < W ->
    foldM (sphere_step L W meq dbg self SZ) xs (sb_init o0) = Ok b ->
    let c := fold_left configure xs (mkConfig 10 20 o0 s1) in
    (let* (_, m) := sb_build L W meq dbg self SZ b in Ok m) =
    mb_sphere L W meq dbg self SZ (cf_polar c) (cf_azimuth c) o1 (mkSphere (cf_origin c) (cf_radius c)).
Proof.
  intros S L W meq dbg self SZ o0 o1 xs b HW H. cbv zeta.
  destruct (sphere_run S L W meq dbg self SZ o0 xs b HW H) as (H1 & H2 & H3).
  unfold mb_sphere, sb_build. cbn [sb_set_sphere sb_set_azimuth sb_set_polar sb_init sb_polar sb_azimuth sb_sphere sb_origin sb_radius].
  rewrite H1, H2, H3. cbv zeta. destruct (build_mesh _ _ _ _ _ _ _ _ _); reflexivity.
Qed.
Print Assumptions C51_sphere_builder.

(** non-vacuity: a history with a build in the middle *)
Example C51_sphere_example : exists b, foldM (sphere_step xL 256 meq_exact true 7 256)
    [SetRadius (2%R : RS 1); SetPolar 3; SetAzimuth 4; Build; SetOrigin ((1, (2, (3, tt)))%R : vec (RS 1) 3); SetRadius (3%R : RS 1)] (sb_init rzero) = Ok b.
Proof.
  cbn [foldM bind sphere_step].
  destruct (C32_sphere_mesh 1 xL 256 meq_exact true 7 256 3 4 rzero rzero 2%R) as (m & E & _); try lia; try lra; [apply xL_on|].
  change (mb_sphere xL 256 meq_exact true 7 256 3 4 rzero (@mkSphere (RS 1) rzero 2%R)) with
    (let* (_, m) := sb_build xL 256 meq_exact true 7 256 (mkSB 3 4 (rzero : point (RS 1)) (1%R : RS 1) (Some (@mkSphere (RS 1) rzero 2%R))) in Ok m) in E.
  unfold sb_build in *. cbn [sb_set_polar sb_set_azimuth sb_set_radius sb_init sb_polar sb_azimuth sb_sphere sb_origin sb_radius] in *.
  change (3 mod 256) with 3. change (4 mod 256) with 4. cbv zeta in *.
  destruct (build_mesh _ _ _ _ _ _ _ _ _) as [m'| | | |]; try discriminate. eexists. reflexivity.
Qed.

(** The members are public: after [build] the builder holds the sphere it has
    built, and the counts as they were converted. *)
Theorem C51_sphere_remembered :
  forall (S : Scalar) (L : Linal S) W meq dbg self SZ o0 (xs : list (sphere_call S)) b b' m,
    20 < W ->
    foldM (sphere_step L W meq dbg self SZ) xs (sb_init o0) = Ok b ->
    sb_build L W meq dbg self SZ b = Ok (b', m) ->
    let c := fold_left configure xs (mkConfig 10 20 o0 s1) in
    sb_sphere b' = Some (mkSphere (cf_origin c) (cf_radius c)) /\
    sb_polar b' = cf_polar c mod W /\ sb_azimuth b' = cf_azimuth c mod W /\
    sb_origin b' = sb_origin b /\ sb_radius b' = sb_radius b.
Proof.
  intros S L W meq dbg self SZ o0 xs b b' m HW H E. cbv zeta.
  destruct (sphere_run S L W meq dbg self SZ o0 xs b HW H) as (H1 & H2 & H3).
  unfold sb_build in E. cbv zeta in E.
  destruct (build_mesh _ _ _ _ _ _ _ _ _) as [m'| | | |]; try discriminate. cbn [bind] in E. apply Ok_inj in E.
  injection E as E _. subst b'. cbn [sb_polar sb_azimuth sb_sphere sb_origin sb_radius].
  split; [f_equal; exact H3|]. auto.
Qed.
Print Assumptions C51_sphere_remembered.

(** non-vacuity: a build that succeeds, with nothing set before but the counts *)
Example C51_remembered_example : exists b b' m,
  foldM (sphere_step xL 256 meq_exact true 7 256) [SetRadius (2%R : RS 1); SetPolar 3; SetAzimuth 4] (sb_init rzero) = Ok b /\
  sb_sphere b = None /\ sb_build xL 256 meq_exact true 7 256 b = Ok (b', m).
Proof.
  destruct (C32_sphere_mesh 1 xL 256 meq_exact true 7 256 3 4 rzero rzero 2%R) as (m & E & _); try lia; try lra; [apply xL_on|].
  change (mb_sphere xL 256 meq_exact true 7 256 3 4 rzero (@mkSphere (RS 1) rzero 2%R)) with
    (let* (_, m) := sb_build xL 256 meq_exact true 7 256 (mkSB 3 4 (rzero : point (RS 1)) (1%R : RS 1) (Some (@mkSphere (RS 1) rzero 2%R))) in Ok m) in E.
  unfold sb_build in *. cbn [sb_set_polar sb_set_azimuth sb_set_radius sb_init sb_polar sb_azimuth sb_sphere sb_origin sb_radius] in *.
  cbv zeta in *. destruct (build_mesh _ _ _ _ _ _ _ _ _) as [m'| | | |] eqn:Em; try discriminate.
  exists (mkSB 3 4 (rzero : point (RS 1)) (2%R : RS 1) None), (mkSB 3 4 (rzero : point (RS 1)) (2%R : RS 1) (Some (@mkSphere (RS 1) rzero 2%R))), m'.
  split; [reflexivity|]. split; [reflexivity|]. cbn [sb_polar sb_azimuth sb_sphere sb_origin sb_radius]. rewrite Em. reflexivity.
Qed.

(** The cuboid builder keeps the cuboid of its first [build]: an origin or a
    diagonal set afterwards changes nothing. *)
Theorem C51_cuboid_builder_ignores :
  forall (S : Scalar) (L : Linal S) W dbg self SZ (b b' : cuboid_builder S) m o d,
    cb_build L W dbg self SZ b = Ok (b', m) ->
    (let* (_, m') := cb_build L W dbg self SZ (cb_set_diagonal (cb_set_origin b' o) d) in Ok m') = Ok m.
Proof.
  intros S L W dbg self SZ b b' m o d E. unfold cb_build in *. cbv zeta in *.
  destruct (cuboid_mesh L W dbg self SZ (match cb_cube b with Some c => c | None => cuboid_diag (cb_origin b) (cb_diagonal b) end)) as [x| | | |] eqn:Em;
    try discriminate. cbn [bind] in E. injection E as <- <-. cbn [cb_set_origin cb_set_diagonal cb_cube]. rewrite Em. reflexivity.
Qed.
Print Assumptions C51_cuboid_builder_ignores.

(** so the second mesh is not the one that was asked for *)
Theorem C51_cuboid_builder_refuted :
  exists (d o : vec R 3) b m m',
    cb_build xL 256 true 7 256 (mkCB None (rzero : point (RS 1)) (d : point (RS 1))) = Ok (b, m) /\
    (let* (_, x) := cb_build xL 256 true 7 256 (cb_set_origin b o) in Ok x) = Ok m /\
    (let* (_, x) := cb_build xL 256 true 7 256 (mkCB None (o : point (RS 1)) (d : point (RS 1))) in Ok x) = Ok m' /\
    In o (m_points m') /\ ~ In o (m_points m).
Proof.
  exists (1, (1, (1, tt)))%R, (5, (0, (0, tt)))%R. set (d := (1, (1, (1, tt)))%R : vec R 3). set (o := (5, (0, (0, tt)))%R : vec R 3).
  assert (Ec : forall o, cuboid_diag (o : vec (RS 1) 3) (d : vec (RS 1) 3) =
               @mkCuboid (RS 1) o (1, (0, (0, tt)))%R (0, (1, (0, tt)))%R (0, (0, (1, tt)))%R).
  { intros o'. unfold cuboid_diag. f_equal; unfold projection, unitX, unitY, unitZ; cbn; repeat (apply f_equal2; [field|]); reflexivity. }
  assert (Hb : forall o, exists m, cuboid_mesh xL 256 true 7 256 (cuboid_diag (o : vec (RS 1) 3) (d : vec (RS 1) 3)) = Ok m /\
    forall q, In q (m_points m) <-> cuboid_corner o (1, (0, (0, tt)))%R (0, (1, (0, tt)))%R (0, (0, (1, tt)))%R q).
  { intros o'. rewrite Ec.
    destruct (cuboid_good 1 xL 256 true 7 256 o' (1, (0, (0, tt)))%R (0, (1, (0, tt)))%R (0, (0, (1, tt)))%R) as (m & E & _ & _ & Hpt & _);
      [lia|cbn; lra|apply xL_on|]. exists m. split; [exact E|]. intros q. rewrite Hpt. symmetry. apply bpos_corner. }
  destruct (Hb rzero) as (m & E & Hm). destruct (Hb o) as (m' & E' & Hm').
  exists (mkCB (Some (cuboid_diag (rzero : vec (RS 1) 3) (d : vec (RS 1) 3))) (rzero : point (RS 1)) (d : point (RS 1))), m, m'.
  assert (E1 : cb_build xL 256 true 7 256 (mkCB None (rzero : point (RS 1)) (d : point (RS 1))) =
    Ok (mkCB (Some (cuboid_diag (rzero : vec (RS 1) 3) (d : vec (RS 1) 3))) (rzero : point (RS 1)) (d : point (RS 1)), m)).
  { unfold cb_build. cbn [cb_cube cb_origin cb_diagonal]. cbv zeta. rewrite E. reflexivity. }
  split; [exact E1|]. split; [exact (C51_cuboid_builder_ignores _ _ _ _ _ _ _ _ _ o d E1)|].
  split; [unfold cb_build; cbn [cb_cube cb_origin cb_diagonal]; cbv zeta; rewrite E'; reflexivity|].
  split.
  - apply Hm'. exists 0%R, 0%R, 0%R. do 3 (split; [auto|]). unfold o. cbn. repeat (apply f_equal2; [lra|]). reflexivity.
  - intros H. apply Hm in H as (a & b & c & Ha & Hb' & Hc & E2). unfold o in E2. cbn in E2. injection E2 as E2 _ _.
    destruct Ha as [->| ->], Hb' as [->| ->], Hc as [->| ->]; lra.
Qed.
Print Assumptions C51_cuboid_builder_refuted.
