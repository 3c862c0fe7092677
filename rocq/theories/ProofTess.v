(** * The meshes of sphere, cone, cylinder and cuboid *)

From Coq Require Import List Arith Bool Lia Permutation Reals Lra.
From Verif Require Import Scalar Linal Result SpecReal VecR VecLemmas ModelKdTree SpecKdTree ProofKdTree ProofKdTreeUpdate ModelShapes ModelTransform SpecTransform
  ProofTransform ModelMesh SpecMesh ProofMesh ProofMeshNormal ModelTess SpecTess ProofTessComb ProofTessConn ProofTessMesh ProofTessSphere ProofTessRound.
Import ListNotations.
Local Open Scope R_scope.

Local Arguments Nat.ltb _ _ : simpl never.
Local Arguments Nat.leb _ _ : simpl never.
Local Arguments Nat.eqb _ _ : simpl never.
Local Arguments Nat.modulo _ _ : simpl never.
Local Arguments Nat.mul _ _ : simpl never.

Lemma place_id M (meq : hmat (RS M) -> hmat (RS M) -> bool) (q : vec R 3) : place meq (@hidentity (RS M)) q = q.
Proof.
  unfold place. destruct (meq _ _); [reflexivity|]. cbn [negb]. destruct q as (x & y & z & []). cbn. unfold mk3.
  repeat (apply f_equal2; [ring|]). reflexivity.
Qed.

(** ** From vertices to the mesh, for every scalar type for which a stored point is
    found by the kd-tree *)
Section TessGen.
  Context {S : Scalar} (L : Linal S) (W : nat) (meq : hmat S -> hmat S -> bool) (dbg : bool) (self : addr) (SZ : nat).
  Context (G : point S -> Prop) (HG : veq_on L G).
  Context (Hnear : forall (t : @tree S 3 (list nat)) k q, ordered 3 SZ 0 t -> (forall x, In x (tpts 3 t) -> G x) -> In q (tpts 3 t) ->
    exists b, nearest SZ (mkKd t k) q = Ok b /\ b_point b = q).
  Context {V : Type} (ok : V -> Prop) (enc : V -> nat) (vs : list V) (N : nat) (tris : list (V * V * V)).
  Context (Henum : map enc vs = seq 0 N) (Hvs : forall v, In v vs -> ok v)
    (Hencinj : forall u v, ok u -> ok v -> enc u = enc v -> u = v) (Hlt : forall v, ok v -> (enc v < N)%nat) (HN : (0 < N)%nat).
  Context (Hcorner : forall v, In v (flat3 tris) <-> ok v) (Hcl : closed_oriented (flat_map edges3 tris))
    (Hconn : forall u v, ok u -> ok v -> chain (edge_rel tris) u v) (Hstar : forall u, ok u -> one_star tris u)
    (HW : (3 * length tris < W)%nat).

  (** what is known of the mesh *)
  Definition surface_mesh (pts : list (point S)) (m : mesh S) : Prop :=
    mesh_is_valid W dbg (only self m) m = Ok true /\ closed_mesh m /\ Permutation (m_points m) pts /\
    length (m_vertices m) = N /\ length (m_halfedges m) = (3 * length tris)%nat /\ length (m_facets m) = length tris.

  Section Positions.
  Context (pos : V -> point S) (Hinj : forall u v, ok u -> ok v -> pos u = pos v -> u = v) (HGpos : forall v, ok v -> G (pos v)).
  Lemma surface_solid_wf : exists m, built L W dbg self SZ (solid_triangles S tris pos) = Ok m /\ surface_mesh (map pos vs) m /\
    well_formed L self (solid_triangles S tris pos) m.
  Proof.
    destruct (solid_mesh L W dbg self SZ G HG ok tris pos Hcorner Hcl Hconn Hstar Hinj HGpos HW Hnear)
      as (m & E & Hw & Hv & Hc & Hpt & Hnd & _).
    exists m. split; [exact E|]. split; [|exact Hw]. unfold surface_mesh.
    assert (HNt : length (solid_triangles S tris pos) = length tris) by (unfold solid_triangles; rewrite !map_length; reflexivity).
    assert (Hp : Permutation (m_points m) (map pos vs)).
    { apply NoDup_Permutation; [exact Hnd| |].
      - apply NoDup_map_on; [apply (enum_NoDup enc vs N Henum)|]. intros x y Hx Hy. apply Hinj; auto.
      - intros q. rewrite Hpt, in_map_iff. split; intros (v & A & B).
        + exists v. split; [auto|]. apply (enum_In ok enc vs N Henum Hvs Hencinj Hlt), A.
        + exists v. split; [auto|]. auto. }
    split; [exact Hv|]. split; [exact Hc|]. split; [exact Hp|].
    split; [rewrite (wf_vertex_count _ _ _ _ Hw), (Permutation_length Hp), map_length; apply (enum_length enc vs N Henum)|].
    split; [rewrite (wf_halfedge_count _ _ _ _ Hw), HNt; reflexivity|].
    rewrite (wf_facet_count _ _ _ _ Hw); exact HNt.
  Qed.
  Lemma surface_solid : exists m, built L W dbg self SZ (solid_triangles S tris pos) = Ok m /\ surface_mesh (map pos vs) m.
  Proof. destruct surface_solid_wf as (m & E & H & _). exists m. split; assumption. Qed.
  End Positions.

  (** [pts] is the list of points as built, in the order of the enumeration *)
  Lemma surface_build_wf (pts : list (point S)) trafo : length pts = N ->
    NoDup (map (place meq trafo) pts) -> (forall q, In q (map (place meq trafo) pts) -> G q) ->
    exists m pos, build_mesh L W meq dbg self SZ pts (flat3 (map (map3 enc) tris)) trafo = Ok m /\
      surface_mesh (map (place meq trafo) pts) m /\ map pos vs = map (place meq trafo) pts /\ well_formed L self (solid_triangles S tris pos) m.
  Proof.
    intros Hl Hnd HGp. set (d := mk3 s0 s0 s0 : point S).
    set (pos0 := fun v => nth (enc v) pts d). set (pos := fun v => place meq trafo (pos0 v)).
    assert (Evs : map pos0 vs = pts).
    { unfold pos0. rewrite <- (map_map enc (fun i => nth i pts d)), Henum, <- Hl. clear. apply nth_ext with d d.
      - rewrite map_length, seq_length. reflexivity.
      - intros i Hi. rewrite map_length, seq_length in Hi.
        rewrite (nth_indep _ d (nth 0 pts d)) by (rewrite map_length, seq_length; exact Hi).
        rewrite (map_nth (fun i => nth i pts d)), seq_nth by exact Hi. reflexivity. }
    assert (Epos : forall v, ok v -> nth_error (map (place meq trafo) pts) (enc v) = Some (pos v)).
    { intros v Hv. rewrite nth_error_map. unfold pos, pos0. rewrite (nth_error_nth' pts d); [reflexivity|]. rewrite Hl. apply Hlt, Hv. }
    destruct (surface_solid_wf pos) as (m & E & Hm & Hw).
    - intros u v Hu Hv Euv. apply Hencinj; [assumption|assumption|]. apply (proj1 (NoDup_nth_error _) Hnd).
      + rewrite map_length, Hl. apply Hlt, Hu.
      + rewrite !Epos by assumption. congruence.
    - intros v Hv. apply HGp. eapply nth_error_In, Epos, Hv.
    - exists m, pos. assert (Em : map pos vs = map (place meq trafo) pts) by (unfold pos; rewrite <- map_map, Evs; reflexivity).
      rewrite Em in Hm. split; [|split; [exact Hm|split; [exact Em|exact Hw]]].
      rewrite <- E, <- Evs. apply (build_mesh_solid ok enc vs N Henum Hvs Hencinj Hlt S L W meq dbg self SZ pos0 trafo tris HN).
      intros v. apply Hcorner.
  Qed.
  Lemma surface_build (pts : list (point S)) trafo : length pts = N ->
    NoDup (map (place meq trafo) pts) -> (forall q, In q (map (place meq trafo) pts) -> G q) ->
    exists m, build_mesh L W meq dbg self SZ pts (flat3 (map (map3 enc) tris)) trafo = Ok m /\
      surface_mesh (map (place meq trafo) pts) m.
  Proof. intros Hl Hnd HGp. destruct (surface_build_wf pts trafo Hl Hnd HGp) as (m & pos & E & H & _). exists m. split; assumption. Qed.
End TessGen.

(** ** From vertices to the mesh *)
Section Tess.
  Context (M : R) (L : Linal (RS M)) (W : nat) (meq : hmat (RS M) -> hmat (RS M) -> bool) (dbg : bool) (self : addr) (SZ : nat).
  Context (G : vec R 3 -> Prop) (HG : veq_on L (G : vec (RS M) 3 -> Prop)).
  Context {V : Type} (ok : V -> Prop) (enc : V -> nat) (vs : list V) (N : nat) (tris : list (V * V * V)).
  Context (Henum : map enc vs = seq 0 N) (Hvs : forall v, In v vs -> ok v)
    (Hencinj : forall u v, ok u -> ok v -> enc u = enc v -> u = v) (Hlt : forall v, ok v -> (enc v < N)%nat) (HN : (0 < N)%nat).
  Context (Hcorner : forall v, In v (flat3 tris) <-> ok v) (Hcl : closed_oriented (flat_map edges3 tris))
    (Hconn : forall u v, ok u -> ok v -> chain (edge_rel tris) u v) (Hstar : forall u, ok u -> one_star tris u)
    (HW : (3 * length tris < W)%nat).
  Context (pos0 pos : V -> vec R 3) (trafo : hmat (RS M)) (Hplace : forall v, ok v -> place meq trafo (pos0 v) = pos v)
    (Hinj : forall u v, ok u -> ok v -> pos u = pos v -> u = v) (HGpos : forall v, ok v -> G (pos v)).

  (** what is known of the mesh *)
  Definition good_mesh (m : mesh (RS M)) : Prop :=
    mesh_is_valid W dbg (only self m) m = Ok true /\ closed_mesh m /\
    (forall q, In q (m_points m) <-> exists v, ok v /\ q = pos v) /\ NoDup (m_points m) /\
    length (m_points m) = N /\ length (m_vertices m) = N /\
    length (m_halfedges m) = (3 * length tris)%nat /\ length (m_facets m) = length tris /\
    (forall c, (forall x y z, In (x, y, z) tris -> faces_away c (pos z) (pos y) (pos x)) -> outward self m c) /\
    (forall c, (forall x y z, In (x, y, z) tris -> faces_away c (pos x) (pos y) (pos z)) -> inward self m c) /\
    facets_have_corners m /\ map (facet_triangle m) (m_facets m) = map Some (solid_triangles (RS M) tris pos) /\
    exists (L' : Linal (RS M)) ts, well_formed L' self ts m.

  Lemma good_solid : exists m, built L W dbg self SZ (solid_triangles (RS M) tris pos) = Ok m /\ good_mesh m.
  Proof.
    destruct (solid_mesh (S := RS M) L W dbg self SZ G HG ok tris pos Hcorner Hcl Hconn Hstar Hinj HGpos HW
      (fun t k q Ho _ Hin => nearest_stored_R M SZ t k q Ho Hin))
      as (m & E & Hw & Hv & Hc & Hpt & Hnd & _).
    exists m. split; [exact E|]. unfold good_mesh.
    assert (HNp : length (m_points m) = N).
    { rewrite <- (enum_length enc vs N Henum). apply (solid_count ok pos vs (m_points m)).
      - apply (enum_NoDup enc vs N Henum).
      - apply (enum_In ok enc vs N Henum Hvs Hencinj Hlt).
      - exact Hinj.
      - exact Hnd.
      - exact Hpt. }
    assert (HNt : length (solid_triangles (RS M) tris pos) = length tris) by (unfold solid_triangles; rewrite !map_length; reflexivity).
    split; [exact Hv|]. split; [exact Hc|]. split; [exact Hpt|]. split; [exact Hnd|]. split; [exact HNp|].
    split; [rewrite (wf_vertex_count _ _ _ _ Hw); exact HNp|].
    split; [rewrite (wf_halfedge_count _ _ _ _ Hw), HNt; reflexivity|].
    split; [rewrite (wf_facet_count _ _ _ _ Hw); exact HNt|].
    split; [|split; [|split; [|split; [|exists L; eauto]]]]; [intros c Hc'|intros c Hc'|intros k Hk|].
    - apply (solid_outward M L self G HG ok tris pos Hcorner HGpos m c Hw Hc').
    - apply (solid_inward M L self G HG ok tris pos Hcorner HGpos m c Hw Hc').
    - rewrite (wf_facet_count _ _ _ _ Hw) in Hk.
      destruct (nth_error (solid_triangles (RS M) tris pos) k) as [t|] eqn:Et; [|apply nth_error_None in Et; destruct (Nat.lt_irrefl k (Nat.lt_le_trans _ _ _ Hk Et))].
      destruct (wf_halfedge _ _ _ _ Hw k t 0 Et (Nat.lt_0_succ 2)) as (h & p & Eh & _ & Ef & _ & _ & _ & Ep & _). eauto 8.
    - apply (facet_triangles L self G HG (solid_triangles (RS M) tris pos)); [|exact Hw].
      intros q Hq. apply (solid_G (S := RS M) G ok tris pos Hcorner HGpos), Hq.
  Qed.

  Lemma good_build : exists m,
    build_mesh L W meq dbg self SZ (map pos0 vs) (flat3 (map (map3 enc) tris)) trafo = Ok m /\ good_mesh m.
  Proof.
    destruct good_solid as (m & E & H). exists m. split; [|exact H]. rewrite <- E.
    etransitivity; [exact (build_mesh_solid ok enc vs N Henum Hvs Hencinj Hlt (RS M) L W meq dbg self SZ pos0 trafo tris HN (fun v => proj1 (Hcorner v)))|].
    f_equal. unfold solid_triangles. f_equal. apply map_ext_in. intros [[x y] z] Ht.
    assert (K : ok x /\ ok y /\ ok z) by (repeat split; apply Hcorner, flat3_In; exists x, y, z; auto).
    cbn [map3]. rewrite !Hplace by apply K. reflexivity.
  Qed.
End Tess.

(** ** Sphere *)
Lemma sphere_corner p a : (2 <= p)%nat -> (3 <= a)%nat -> forall v, In v (flat3 (map (ctri p a) (ctags p a))) <-> sv_ok p a v.
Proof.
  intros Hp Ha v. split; [|apply ctri_cover; assumption]. intros H. apply flat3_In in H as (x & y & z & Ht & H).
  apply in_map_iff in Ht as (t & E & Ht). apply ctags_ok in Ht; [|assumption|assumption].
  pose proof (ctri_ok p a Hp Ha t Ht) as K. rewrite E in K. destruct H as [->|[->| ->]]; apply K.
Qed.

Lemma sphere_mesh M (L : Linal (RS M)) W meq dbg self SZ p a (o0 : vec R 3) o r :
  (2 <= p)%nat -> (3 <= a)%nat -> (6 * a * (p - 1) < W)%nat -> 0 < r ->
  veq_on L ((fun q => sphere_grid p a o r q \/ q = o \/ q = rzero) : vec (RS M) 3 -> Prop) ->
  exists m, mb_sphere L W meq dbg self SZ p a o0 (@mkSphere (RS M) o r) = Ok m /\
    good_mesh M W dbg self (sv_ok p a) ((p - 1) * a + 2) (map (ctri p a) (ctags p a)) (spos p a o r) m.
Proof.
  intros Hp Ha HW Hr HG.
  assert (Hpos : forall v, sv_ok p a v -> sphere_grid p a o r (spos p a o r v) \/ spos p a o r v = o \/ spos p a o r v = rzero).
  { intros v Hv. left. apply (spos_grid p a Hp Ha o r). eauto. }
  assert (HWl : (3 * length (map (ctri p a) (ctags p a)) < W)%nat) by (rewrite map_length, ctags_length by assumption; lia).
  assert (Ho : veq L (o : vec (RS M) 3) rzero = true -> o = rzero).
  { apply HG; [right; left; reflexivity|right; right; reflexivity]. }
  assert (B1 : ((p - 1) * a + 2 < W)%nat) by nia.
  assert (B2 : (p < W)%nat) by nia. assert (B3 : (a < W)%nat) by nia.
  assert (HN : (0 < (p - 1) * a + 2)%nat) by (rewrite Nat.add_comm; apply Nat.lt_0_succ).
  destruct (good_build M L W meq dbg self SZ _ HG (sv_ok p a) (senc p a) (svs p a) ((p - 1) * a + 2) (map (ctri p a) (ctags p a))
    (svs_enum p a) (svs_ok p a) (senc_inj p a Hp Ha) (senc_lt p a Hp Ha) HN (sphere_corner p a Hp Ha) (ctri_closed p a Hp Ha)
    (sphere_connected p a Hp Ha) (sphere_star p a Hp Ha) HWl (spos p a o r) (spos p a o r) hidentity
    (fun v _ => place_id M meq _) (spos_inj p a Hp Ha o r Hr) Hpos) as (m & E & H).
  exists m. split; [|exact H].
  unfold mb_sphere, sb_build, sb_set_sphere, sb_set_azimuth, sb_set_polar, sb_init. cbn [sb_polar sb_azimuth sb_sphere sb_origin sb_radius].
  rewrite !(Nat.mod_small _ _ B2), !(Nat.mod_small _ _ B3).
  rewrite (sphere_points_eq p a Hp Ha o r M L Ho).
  rewrite map_length, (enum_length (senc p a) (svs p a) _ (svs_enum p a)), Nat.mod_small by exact B1.
  rewrite (sphere_indices_eq p a Hp Ha W B1 B2 B3). rewrite E. reflexivity.
Qed.

(** ** Cone and cylinder *)
Lemma direction_R M (s : segment (RS M) 3) : @segment_direction (RS M) 3 s =
  rscale (/ rdist (g_target s) (g_source s)) (rsub (g_target s) (g_source s)).
Proof. unfold segment_direction. rewrite vsub_R, normalize_R. reflexivity. Qed.
Lemma length_R M (s : segment (RS M) 3) : @segment_length (RS M) 3 s = rdist (g_target s) (g_source s).
Proof. unfold segment_length. rewrite vsub_R, vlength_R. reflexivity. Qed.

Lemma affine_z (A : vec (vec R 3) 3) t z : affine A t (0, (0, (z, tt))) = radd t (rscale z (affine A rzero e_z)).
Proof. unfold affine, e_z. destruct A as (u & v & w & []). v3. cbn. repeat (apply f_equal2; [ring|]). reflexivity. Qed.

Section Axis.
  Context (M : R) (s : segment (RS M) 3) (A : vec (vec R 3) 3).
  Let src : vec R 3 := g_source s.
  Let tgt : vec R 3 := g_target s.
  Context (Hl : 0 < rdist tgt src) (HA : rotation_onto A (@segment_direction (RS M) 3 s)).

  Lemma axis_start : affine A src (0, (0, (0, tt))) = src.
  Proof. rewrite affine_z. apply eq_by_dot. vring. Qed.
  Lemma axis_point z : affine A src (0, (0, (z, tt))) = along src (rsub tgt src) (z / rdist tgt src).
  Proof.
    rewrite affine_z. destruct HA as (_ & _ & ->). rewrite direction_R. fold src tgt. unfold along.
    rewrite rscale_scale. reflexivity.
  Qed.
  Lemma axis_end : affine A src (0, (0, (rdist tgt src, tt))) = tgt.
  Proof.
    rewrite axis_point. unfold Rdiv. rewrite Rinv_r by lra. unfold along. apply eq_by_dot. vring.
  Qed.
End Axis.

Lemma affine_cyl (A : vec (vec R 3) 3) c r ph z : affine A c (cylindrical r ph z) = affine A (affine A c (0, (0, (z, tt)))) (cylindrical r ph 0).
Proof. unfold affine, cylindrical. destruct A as (u & v & w & []). v3. cbn. repeat (apply f_equal2; [ring|]). reflexivity. Qed.

Lemma rim_on_circle M (s : segment (RS M) 3) A a r q c : 0 < r -> 0 < rdist (g_target s : vec R 3) (g_source s) ->
  rotation_onto A (@segment_direction (RS M) 3 s) -> rim a A c r q -> on_circle c r (rsub (g_target s) (g_source s)) q.
Proof.
  intros Hr Hl (HA & _ & Hz) (j & Hj & ->). set (ph := INR j * (2 * PI / INR a)).
  assert (E0 : affine A c (0, (0, (0, tt))) = c) by (rewrite affine_z; apply eq_by_dot; vring).
  split.
  - rewrite <- E0 at 2. rewrite (rigid_shift A c HA). unfold rdist, rnorm, cylindrical. cbn.
    transitivity (sqrt (Rsqr r)); [|apply sqrt_Rsqr; lra]. f_equal. pose proof (sin2_cos2 ph) as K. unfold Rsqr in *. nra.
  - rewrite <- E0 at 2.
    rewrite direction_R in Hz. set (t := g_target s : vec R 3) in *. set (u := g_source s : vec R 3) in *.
    assert (Ed : rsub t u = rscale (rdist t u) (affine A rzero e_z)).
    { rewrite Hz, rscale_scale, Rinv_r by lra. rewrite rscale_1. reflexivity. }
    rewrite Ed, rdot_scale_l. apply Rmult_eq_0_compat_l.
    replace (affine A rzero e_z) with (rsub (affine A rzero e_z) (affine A rzero (0, (0, (0, tt))))).
    2:{ rewrite affine_z. apply eq_by_dot. vring. }
    rewrite (affine_sub A c), <- (affine_sub A rzero).
    rewrite (rigid_dot (affine A rzero)) by exact HA. unfold e_z, cylindrical. cbn. ring.
Qed.

Lemma cone_corner a (Ha : (3 <= a)%nat) v : In v (flat3 (map (ktri a) (ktags a))) <-> kv_ok a v.
Proof.
  split; [|apply ktri_cover; lia]. intros H. apply flat3_In in H as (x & y & z & Ht & H).
  apply in_map_iff in Ht as (t & E & Ht). apply ktags_ok in Ht.
  pose proof (ktri_ok a t Ht) as K. rewrite E in K. destruct H as [->|[->| ->]]; apply K.
Qed.
Lemma cyl_corner a (Ha : (3 <= a)%nat) v : In v (flat3 (map (ytri a) (ytags a))) <-> yv_ok a v.
Proof.
  split; [|apply ytri_cover; lia]. intros H. apply flat3_In in H as (x & y & z & Ht & H).
  apply in_map_iff in Ht as (t & E & Ht). apply ytags_ok in Ht.
  pose proof (ytri_ok a t Ht) as K. rewrite E in K. destruct H as [->|[->| ->]]; apply K.
Qed.

Section Cone.
  Context (M : R) (L : Linal (RS M)) (HL : LinalR L) (W : nat) (meq : hmat (RS M) -> hmat (RS M) -> bool)
    (rot_align : hvec (RS M) -> hvec (RS M) -> hmat (RS M)) (dbg : bool) (self : addr) (SZ : nat).
  Context (s : segment (RS M) 3) (r : R) (A : vec (vec R 3) 3) (a : nat).
  Let src : vec R 3 := g_source s.
  Let tgt : vec R 3 := g_target s.
  Let len := rdist tgt src.
  Context (Ha : (3 <= a)%nat) (Hr : 0 < r) (Hlen : 0 < len) (Hal : aligned rot_align meq s A).

  Lemma unit_direction : @vlength (RS M) 3 (segment_direction s) = 1.
  Proof.
    rewrite vlength_R, direction_R. fold src tgt. apply rnorm_normalize. intros E. unfold len, rdist in Hlen. rewrite E, rnorm_rzero in Hlen. lra.
  Qed.

  Definition kworld (v : kvert) : vec R 3 := affine A src (kpos a r len v).
  Definition yworld (v : yvert) : vec R 3 := affine A src (ypos a r len v).

  Lemma kworld_inj u v : kv_ok a u -> kv_ok a v -> kworld u = kworld v -> u = v.
  Proof.
    intros Hu Hv E. apply (rigid_inj _ _ _ (rigid_shift A src (proj1 (proj1 Hal)))) in E.
    apply (kpos_inj a Ha r len Hr Hlen); assumption.
  Qed.
  Lemma yworld_inj u v : yv_ok a u -> yv_ok a v -> yworld u = yworld v -> u = v.
  Proof.
    intros Hu Hv E. apply (rigid_inj _ _ _ (rigid_shift A src (proj1 (proj1 Hal)))) in E.
    apply (ypos_inj a Ha r len Hr Hlen); assumption.
  Qed.

  Definition cone_grid (q : vec R 3) : Prop := q = src \/ q = tgt \/ rim a A src r q.
  Definition cyl_grid (q : vec R 3) : Prop := q = src \/ q = tgt \/ rim a A src r q \/ rim a A tgt r q.
  Lemma kworld_grid q : cone_grid q <-> exists v, kv_ok a v /\ q = kworld v.
  Proof.
    split.
    - intros [->|[->|(j & Hj & ->)]].
      + exists KC. split; [exact I|]. symmetry. apply axis_start.
      + exists KP. split; [exact I|]. symmetry. apply (axis_end M s A Hlen (proj1 Hal)).
      + exists (KR j). split; [exact Hj|reflexivity].
    - intros (v & Hv & ->). destruct v as [| |j]; cbn in Hv.
      + left. apply axis_start.
      + right; left. apply (axis_end M s A Hlen (proj1 Hal)).
      + right; right. exists j. split; [exact Hv|reflexivity].
  Qed.
  Lemma yworld_grid q : cyl_grid q <-> exists v, yv_ok a v /\ q = yworld v.
  Proof.
    assert (T : forall j, affine A src (cylindrical r (azi a j) len) = affine A tgt (cylindrical r (azi a j) 0)).
    { intros j. rewrite affine_cyl. f_equal. apply (axis_end M s A Hlen (proj1 Hal)). }
    split.
    - intros [->|[->|[(j & Hj & ->)|(j & Hj & ->)]]].
      + exists YB. split; [exact I|]. symmetry. apply axis_start.
      + exists YT. split; [exact I|]. symmetry. apply (axis_end M s A Hlen (proj1 Hal)).
      + exists (YRB j). split; [exact Hj|reflexivity].
      + exists (YRT j). split; [exact Hj|]. symmetry. apply T.
    - intros (v & Hv & ->). destruct v as [| |j|j]; cbn in Hv.
      + left. apply axis_start.
      + right; left. apply (axis_end M s A Hlen (proj1 Hal)).
      + right; right; left. exists j. split; [exact Hv|reflexivity].
      + right; right; right. exists j. split; [exact Hv|apply T].
  Qed.

  Lemma axis_inside t : 0 < t < 1 -> exists h, 0 < h < len /\ along src (rsub tgt src) t = affine A src (0, (0, (h, tt))).
  Proof.
    intros Ht. exists (t * len). split; [split; nra|].
    rewrite (axis_point M s A (proj1 Hal)). f_equal. unfold len, src, tgt. field. unfold len, src, tgt in Hlen. lra.
  Qed.

  Lemma cone_mesh : (6 * a < W)%nat -> (dbg = true -> leps L < len) ->
    veq_on L (cone_grid : vec (RS M) 3 -> Prop) ->
    exists m, mb_cone L W meq dbg self SZ rot_align a (@mkCone (RS M) s r) = Ok (Some m) /\
      good_mesh M W dbg self (kv_ok a) (a + 2) (map (ktri a) (ktags a)) kworld m.
  Proof.
    intros HW Hd HG. destruct Hal as (HA & t0 & l & Erot & Hmeq).
    assert (HWl : (3 * length (map (ktri a) (ktags a)) < W)%nat) by (rewrite map_length, ktags_length; lia).
    assert (HN : (0 < a + 2)%nat) by lia.
    destruct (good_build M L W meq dbg self SZ _ HG (kv_ok a) (kenc a) (kvs a) (a + 2) (map (ktri a) (ktags a))
      (kvs_enum a) (kvs_ok a) (kenc_inj a) (kenc_lt a) HN (cone_corner a Ha) (ktri_closed a Ha) (cone_connected a Ha) (cone_star a Ha) HWl
      (kpos a r len) kworld (hmat_of A src l) (fun v _ => place_R M meq A src l _ Hmeq) kworld_inj) as (m & E & H).
    { intros v Hv. apply kworld_grid. eauto. }
    exists m. split; [|exact H]. unfold mb_cone, cone_build. cbn [co_segment].
    rewrite Nat.mod_small by lia. rewrite geo_assert_true by reflexivity. cbn [bind].
    assert (E1 : dbg = true -> negb (isZero L (leps L) (@segment_length (RS M) 3 s)) = true).
    { intros D. destruct (isZero L (leps L) _) eqn:E1; [|reflexivity]. apply (lr_zero_1 _ HL) in E1; [|apply lr_eps, HL].
      rewrite length_R in E1. fold src tgt len in E1. rewrite Rabs_pos_eq in E1 by lra. specialize (Hd D). lra. }
    replace (geo_assert dbg (negb (isZero L (leps L) (segment_length s)))) with (Ok tt).
    2:{ destruct dbg; [rewrite E1 by reflexivity; reflexivity|destruct (negb _); reflexivity]. }
    cbn [bind]. rewrite unit_direction. rewrite geo_assert_true by (apply (lr_eq_0 _ HL), lr_eps, HL). cbn [bind].
    destruct (cone_triangles_eq W a (@mkCone (RS M) s r)) as (pts & Et & Ep); [lia|]. rewrite Et. cbn [bind].
    cbn [co_segment co_radius] in Ep. rewrite length_R in Ep. fold src tgt len in Ep.
    assert (Eset : @set_translation (RS M) (rot_align (mk4 s0 s0 s1 s1) (to_hvec (segment_direction s))) (g_source s) = hmat_of A src l).
    { transitivity (@set_translation (RS M) (hmat_of A t0 l) src); [f_equal; exact Erot|apply set_translation_R]. }
    rewrite Eset. assert (Ep' : pts = map (kpos a r len) (kvs a)) by (rewrite Ep; apply (cone_points_eq a r len M)).
    rewrite Ep'. setoid_rewrite E. reflexivity.
  Qed.

  Lemma cylinder_mesh : (12 * a < W)%nat -> veq_on L (cyl_grid : vec (RS M) 3 -> Prop) ->
    exists m, mb_cylinder L W meq dbg self SZ rot_align a (@mkCylinder (RS M) s r) = Ok (Some m) /\
      good_mesh M W dbg self (yv_ok a) (2 * a + 2) (map (ytri a) (ytags a)) yworld m.
  Proof.
    intros HW HG. destruct Hal as (HA & t0 & l & Erot & Hmeq).
    assert (HWl : (3 * length (map (ytri a) (ytags a)) < W)%nat) by (rewrite map_length, ytags_length; lia).
    assert (HN : (0 < 2 * a + 2)%nat) by lia.
    destruct (good_build M L W meq dbg self SZ _ HG (yv_ok a) (yenc a) (yvs a) (2 * a + 2) (map (ytri a) (ytags a))
      (yvs_enum a) (yvs_ok a) (yenc_inj a) (yenc_lt a) HN (cyl_corner a Ha) (ytri_closed a Ha) (cyl_connected a Ha) (cyl_star a Ha) HWl
      (ypos a r len) yworld (hmat_of A src l) (fun v _ => place_R M meq A src l _ Hmeq) yworld_inj) as (m & E & H).
    { intros v Hv. apply yworld_grid. eauto. }
    exists m. split; [|exact H]. unfold mb_cylinder, cylinder_build. cbn [cy_segment].
    rewrite Nat.mod_small by lia. rewrite geo_assert_true by reflexivity. cbn [bind].
    destruct (cylinder_triangles_eq W dbg a (@mkCylinder (RS M) s r)) as (pts & Et & Ep); [lia|lia|]. rewrite Et. cbn [bind].
    cbn [cy_segment cy_radius] in Ep. rewrite length_R in Ep. fold src tgt len in Ep.
    assert (Eset : @set_translation (RS M) (rot_align (mk4 s0 s0 s1 s1) (to_hvec (segment_direction s))) (g_source s) = hmat_of A src l).
    { transitivity (@set_translation (RS M) (hmat_of A t0 l) src); [f_equal; exact Erot|apply set_translation_R]. }
    rewrite Eset. assert (Ep' : pts = map (ypos a r len) (yvs a)) by (rewrite Ep; apply (cylinder_points_eq a Ha r len M)).
    rewrite Ep'. setoid_rewrite E. reflexivity.
  Qed.

  Lemma cone_outward m N : good_mesh M W dbg self (kv_ok a) N (map (ktri a) (ktags a)) kworld m ->
    forall t, 0 < t < 1 -> outward self m (along src (rsub tgt src) t).
  Proof.
    intros H t Ht. destruct (axis_inside t Ht) as (h & Hh & ->). apply H. intros x y z Hin.
    apply affine_faces; [apply Hal|]. apply (ktri_away a Ha r len Hr h x y z Hh Hin).
  Qed.
  Lemma cylinder_outward m N : good_mesh M W dbg self (yv_ok a) N (map (ytri a) (ytags a)) yworld m ->
    forall t, 0 < t < 1 -> outward self m (along src (rsub tgt src) t).
  Proof.
    intros H t Ht. destruct (axis_inside t Ht) as (h & Hh & ->). apply H. intros x y z Hin.
    apply affine_faces; [apply Hal|]. apply (ytri_away a Ha r len Hr Hlen h x y z Hh Hin).
  Qed.
End Cone.
