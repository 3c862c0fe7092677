(** * Property theorems: vertex normals of tessellations point outwards (C80) *)

From Coq Require Import List Arith Bool Lia Permutation ZArith Reals Lra.
From Flocq Require Import Core BinarySingleNaN.
From Verif Require Import Scalar Linal Result SpecReal VecR VecLemmas ModelKdTree SpecKdTree SpecTransform SpecIEEE SpecFloatErr SpecFloatTess SpecFloatOut SpecVertexOut
  ModelShapes ModelTransform ModelMesh SpecMesh ModelTess SpecTess ProofTransform ProofTessComb ProofTessConn ProofTessMesh ProofTessSphere ProofTessRound ProofTess ProofTessCuboid ProofVolume ProofConvex
  ProofRound ProofIEEE ProofFloatErr ProofFloatDist ProofFloatTrig ProofTessSafe ProofMeshIEEE ProofFloatTess ProofFloatRound ProofFloatOut ProofVertexOut
  PropTess PropMeshIEEE PropFloatTess PropFloatRound PropFloatOut.
Import ListNotations.
Local Open Scope R_scope.

(** ** C80, exact arithmetic: whatever comparison [L'] the normals at a vertex are made
    unique with. *)
Lemma good_vertices M W dbg self {V} (ok : V -> Prop) N tris (pos : V -> vec R 3) m (L' : Linal (RS M)) c :
  good_mesh M W dbg self ok N tris pos m -> (outward self m c -> vertices_outward L' self m c) /\ (inward self m c -> vertices_inward L' self m c).
Proof.
  intros (_ & _ & _ & _ & _ & _ & _ & _ & _ & _ & _ & _ & L & ts & Hw). split; [exact (outward_vertices M L' L self ts m c Hw)|exact (inward_vertices M L' L self ts m c Hw)].
Qed.

Theorem C80_sphere :
  forall (M : R) (L L' : Linal (RS M)) W meq dbg self SZ (p a : nat) (o0 o : vec R 3) (r : R) (m : mesh (RS M)),
    (2 <= p)%nat -> (3 <= a)%nat -> (6 * a * (p - 1) < W)%nat -> 0 < r ->
    veq_on L ((fun q => sphere_grid p a o r q \/ q = o \/ q = rzero) : vec (RS M) 3 -> Prop) ->
    mb_sphere L W meq dbg self SZ p a o0 (@mkSphere (RS M) o r) = Ok m ->
    length (m_points m) = ((p - 1) * a + 2)%nat /\ vertices_outward L' self m o.
Proof.
  intros M L L' W meq dbg self SZ p a o0 o r m Hp Ha HW Hr HG E.
  pose proof (C34_sphere_outward M L W meq dbg self SZ p a o0 o r m Hp Ha HW Hr HG E) as HO.
  destruct (sphere_mesh M L W meq dbg self SZ p a o0 o r Hp Ha HW Hr HG) as (m' & E' & H).
  rewrite E in E'. apply Ok_inj in E'. subst m'. split; [apply H|]. exact (proj1 (good_vertices _ _ _ _ _ _ _ _ _ L' o H) HO).
Qed.
Print Assumptions C80_sphere.

Theorem C80_cone :
  forall (M : R) (L L' : Linal (RS M)) W meq rot_align dbg self SZ (s : segment (RS M) 3) (r : R) (A : vec (vec R 3) 3) (a : nat)
         (m : mesh (RS M)) (t : R),
    let src := g_source s : vec R 3 in
    let tgt := g_target s : vec R 3 in
    LinalR L -> (3 <= a)%nat -> (6 * a < W)%nat -> 0 < r -> 0 < rdist tgt src -> (dbg = true -> leps L < rdist tgt src) ->
    aligned rot_align meq s A ->
    veq_on L ((fun q => q = src \/ q = tgt \/ rim a A src r q) : vec (RS M) 3 -> Prop) ->
    mb_cone L W meq dbg self SZ rot_align a (@mkCone (RS M) s r) = Ok (Some m) ->
    0 < t < 1 -> length (m_points m) = (a + 2)%nat /\ vertices_outward L' self m (along src (rsub tgt src) t).
Proof.
  intros M L L' W meq rot_align dbg self SZ s r A a m t src tgt HL Ha HW Hr Hl Hd Hal HG E Ht.
  pose proof (C52_cone_outward M L W meq rot_align dbg self SZ s r A a m t HL Ha HW Hr Hl Hd Hal HG E Ht) as HO.
  destruct (cone_mesh M L HL W meq rot_align dbg self SZ s r A a Ha Hr Hl Hal HW Hd HG) as (m' & E' & H).
  rewrite E in E'. injection E' as <-. split; [apply H|]. exact (proj1 (good_vertices _ _ _ _ _ _ _ _ _ L' _ H) HO).
Qed.
Print Assumptions C80_cone.

Theorem C80_cylinder :
  forall (M : R) (L L' : Linal (RS M)) W meq rot_align dbg self SZ (s : segment (RS M) 3) (r : R) (A : vec (vec R 3) 3) (a : nat)
         (m : mesh (RS M)) (t : R),
    let src := g_source s : vec R 3 in
    let tgt := g_target s : vec R 3 in
    (3 <= a)%nat -> (12 * a < W)%nat -> 0 < r -> 0 < rdist tgt src ->
    aligned rot_align meq s A ->
    veq_on L ((fun q => q = src \/ q = tgt \/ rim a A src r q \/ rim a A tgt r q) : vec (RS M) 3 -> Prop) ->
    mb_cylinder L W meq dbg self SZ rot_align a (@mkCylinder (RS M) s r) = Ok (Some m) ->
    0 < t < 1 -> length (m_points m) = (2 * a + 2)%nat /\ vertices_outward L' self m (along src (rsub tgt src) t).
Proof.
  intros M L L' W meq rot_align dbg self SZ s r A a m t src tgt Ha HW Hr Hl Hal HG E Ht.
  pose proof (C52_cylinder_outward M L W meq rot_align dbg self SZ s r A a m t Ha HW Hr Hl Hal HG E Ht) as HO.
  destruct (cylinder_mesh M L W meq rot_align dbg self SZ s r A a Ha Hr Hl Hal HW HG) as (m' & E' & H).
  rewrite E in E'. injection E' as <-. split; [apply H|]. exact (proj1 (good_vertices _ _ _ _ _ _ _ _ _ L' _ H) HO).
Qed.
Print Assumptions C80_cylinder.

Theorem C80_cuboid :
  forall (M : R) (L L' : Linal (RS M)) W dbg self SZ (o0 d0 o x y z : vec R 3) (m : mesh (RS M)) (c : vec R 3),
    (36 < W)%nat -> veq_on L (cuboid_corner o x y z : vec (RS M) 3 -> Prop) ->
    mb_cuboid L W dbg self SZ o0 d0 (@mkCuboid (RS M) o x y z) = Ok m -> cuboid_inside o x y z c ->
    (0 < rdot (rcross x y) z -> length (m_points m) = 8%nat /\ vertices_outward L' self m c) /\
    (rdot (rcross x y) z < 0 -> length (m_points m) = 8%nat /\ vertices_inward L' self m c).
Proof.
  intros M L L' W dbg self SZ o0 d0 o x y z m c HW HG E Hc. split; intros Hd.
  - pose proof (C52_cuboid_outward M L W dbg self SZ o0 d0 o x y z m c HW Hd HG E Hc) as HO.
    destruct (cuboid_good M L W dbg self SZ o x y z HW ltac:(lra) HG) as (m' & E' & H).
    unfold mb_cuboid, cb_build, cb_set_cuboid in E. cbn [cb_cube] in E. rewrite E' in E. cbn [bind] in E. apply Ok_inj in E. subst m'.
    split; [apply H|]. exact (proj1 (good_vertices _ _ _ _ _ _ _ _ _ L' _ H) HO).
  - pose proof (C52_cuboid_inward M L W dbg self SZ o0 d0 o x y z m c HW Hd HG E Hc) as HO.
    destruct (cuboid_good M L W dbg self SZ o x y z HW ltac:(lra) HG) as (m' & E' & H).
    unfold mb_cuboid, cb_build, cb_set_cuboid in E. cbn [cb_cube] in E. rewrite E' in E. cbn [bind] in E. apply Ok_inj in E. subst m'.
    split; [apply H|]. exact (proj2 (good_vertices _ _ _ _ _ _ _ _ _ L' _ H) HO).
Qed.
Print Assumptions C80_cuboid.

(** ** Floating point: the meshes of C79, with enough digits for the number of steps. *)
Lemma sphere_counts p (np na : nat) : (2 <= np)%nat -> (3 <= na)%nat -> let N := INR np * INR np * INR na in 100 * uround p * (N * N) <= 1 ->
  let mu := 2 / (3 * N) in let cnt := INR (3 * (2 * na * (np - 1))) in
  0 < mu /\ 12 * mu = 8 / N /\ 32 * cnt * uround p <= 1 /\ 13 * uround p <= mu - 36 * uround p / mu - 6 / 5 * cnt * uround p.
Proof.
  intros Hnp Hna N HN mu cnt. pose proof (@u_pos p) as Hu. assert (P : 2 <= INR np) by exact (INR_p np Hnp). assert (A : 3 <= INR na) by exact (INR_a na Hna).
  assert (PA : 2 * 3 <= INR np * INR na) by (apply Rmult_le_compat; lra).
  assert (N2 : 2 * (INR np * INR na) <= N) by (unfold N; rewrite Rmult_assoc; apply Rmult_le_compat_r; lra). assert (N12 : 12 <= N) by lra.
  assert (Hc : cnt <= 3 * N).
  { apply Rle_trans with (INR (6 * (np * na))); [unfold cnt; apply le_INR; nia|]. rewrite !mult_INR. change (INR 6) with (INR 6). replace (INR 6) with 6 by (cbn; ring). lra. }
  assert (c0 : 0 <= cnt) by apply pos_INR.
  assert (NN : 12 * N <= N * N) by (apply Rmult_le_compat_r; lra). assert (uN : 12 * (uround p * N) <= uround p * (N * N)) by (replace (12 * (uround p * N)) with (uround p * (12 * N)) by ring; apply Rmult_le_compat_l; lra).
  assert (cu : cnt * uround p <= 3 * N * uround p) by (apply Rmult_le_compat_r; lra).
  split; [unfold mu; apply Rdiv_lt_0_compat; lra|]. split; [unfold mu; field; lra|]. split; [lra|].
  replace (36 * uround p / mu) with (54 * uround p * N) by (unfold mu; field; lra).
  assert (T : (13 * uround p + 54 * uround p * N + 18 / 5 * N * uround p) <= mu); [|lra].
  unfold mu. apply Rmult_le_reg_r with (3 * N); [lra|]. replace (2 / (3 * N) * (3 * N)) with 2 by (field; lra). lra.
Qed.
Lemma round_counts p (na q : nat) r l : (3 <= na)%nat -> (q <= 4)%nat -> 0 < r -> 0 < l -> let rho := r + l in let kap := INR na * (rho * rho * rho) / (r * r * l) in
  5500 * uround p * (kap * kap) <= 1 -> let mu := 1 / (12 * kap) in let cnt := INR (3 * (q * na)) in
  0 < mu /\ 12 * mu * (rho * rho * rho) = r * r * l / INR na /\ 32 * cnt * uround p <= 1 /\ 13 * uround p <= mu - 36 * uround p / mu - 6 / 5 * cnt * uround p.
Proof.
  intros Hna Hq Hr Hl rho kap HK mu cnt. pose proof (@u_pos p) as Hu. assert (N3 : 3 <= INR na) by (apply (le_INR 3) in Hna; cbn in Hna; lra).
  assert (rho0 : 0 < rho) by (unfold rho; lra). assert (V : 0 < r * r * l) by (repeat apply Rmult_lt_0_compat; assumption).
  assert (VR : r * r * l <= rho * rho * rho). { apply Rmult_le_compat; try (unfold rho; lra); [apply Rle_0_sqr|]. apply Rmult_le_compat; unfold rho; lra. }
  assert (NK : INR na <= kap). { unfold kap. apply Rmult_le_reg_r with (r * r * l); [exact V|]. replace (INR na * (rho * rho * rho) / (r * r * l) * (r * r * l)) with (INR na * (rho * rho * rho)) by (field; lra). apply Rmult_le_compat_l; lra. }
  assert (K3 : 3 <= kap) by lra. assert (KK : 3 * kap <= kap * kap) by (apply Rmult_le_compat_r; lra).
  assert (uK : 3 * (uround p * kap) <= uround p * (kap * kap)) by (replace (3 * (uround p * kap)) with (uround p * (3 * kap)) by ring; apply Rmult_le_compat_l; lra).
  assert (Hc : cnt <= 12 * kap). { apply Rle_trans with (INR (12 * na)); [unfold cnt; apply le_INR; nia|]. rewrite mult_INR. replace (INR 12) with 12 by (cbn; ring). lra. }
  assert (cu : cnt * uround p <= 12 * kap * uround p) by (apply Rmult_le_compat_r; lra).
  split; [unfold mu; apply Rdiv_lt_0_compat; lra|].
  split; [unfold mu, kap; field; repeat split; lra|]. split; [lra|].
  replace (36 * uround p / mu) with (432 * uround p * kap) by (unfold mu; field; lra).
  assert (T : (13 * uround p + 432 * uround p * kap + 6 / 5 * (12 * kap) * uround p) <= mu); [|lra].
  unfold mu. apply Rmult_le_reg_r with (12 * kap); [lra|]. replace (1 / (12 * kap) * (12 * kap)) with 1 by (field; lra). lra.
Qed.

Theorem C80_sphere_float :
  forall p e Hp He, (2 < p)%Z -> forall f g h pi,
  let S := IEEE p e Hp He f g h pi in
  forall (L : Linal S) W meq dbg self SZ (k K : Z) (np na : nat) (o0 : point S) (s : sphere S) (d t M : R),
    (2 <= np)%nat -> (3 <= na)%nat -> (6 * na * (np - 1) < W)%nat -> meq hidentity hidentity = true ->
    trig_accurate d f g pi -> equal_within L t -> (3 - e - p <= 2 * k)%Z ->
    let o := s_origin s : vec (binary_float p e) 3 in let r := B2R (s_radius s : binary_float p e) in
    finite_pt o -> (forall i, (i < 3)%nat -> Rabs (fval i o) <= M) -> M <= bpow radix2 (e - 2) ->
    is_finite (s_radius s : binary_float p e) = true -> 0 < r <= bpow radix2 (e - 2) ->
    let c := 64 * (d * r) + uround p * M + t in
    INR np * INR na * (c + bpow radix2 k) <= r -> INR np * INR np * INR na * (2 * c) <= r ->
    scale_frame p e K r (8 * (r * r * r) / (INR np * INR np * INR na)) ->
    let N := INR np * INR np * INR na in 100 * uround p * (N * N) <= 1 ->
    exists m, mb_sphere L W meq dbg self SZ np na o0 s = Ok m /\ length (m_facets m) = (2 * na * (np - 1))%nat /\ float_outward self m (vreal o) /\ float_vertices_outward L self m (vreal o).
Proof.
  intros p e Hp He H2 f g h pi S L W meq dbg self SZ k K np na o0 s d t M Hnp Hna HW Hid Ht HL Hk o r Fo HoM HM Fr (Hr & Hre) c Hsep Hout Hfr N HNN.
  destruct (sphere_ready p e Hp He H2 f g h pi L W meq dbg self SZ k K np na o0 s d t M Hnp Hna HW Hid Ht HL Hk Fo HoM HM Fr (conj Hr Hre) Hsep Hout Hfr) as (m & Em & Hl & Hrd).
  exists m. split; [exact Em|]. split; [exact Hl|]. split; [exact (ready_outward f g h pi L self m _ _ _ _ _ _ Hrd)|].
  destruct (sphere_counts p np na Hnp Hna HNN) as (A1 & A2 & A3 & A4). fold N in A1, A2, A4.
  apply (ready_vertices f g h pi L self m _ _ _ _ _ _ (2 / (3 * N)) Hrd A1); [rewrite A2; fold N; right; field|exact A3|exact A4].
  intros Z. rewrite Z in A1. unfold Rdiv in A1. rewrite Rmult_0_r, Rinv_0 in A1. lra.
Qed.
Print Assumptions C80_sphere_float.

(** double precision; the number of steps is smaller than in C79 *)
Corollary C80_sphere_double :
  forall f g h pi, let S := B64 f g h pi in
  forall (L : Linal S) W meq dbg self SZ (np na : nat) (o0 : point S) (s : sphere S),
    (2 <= np)%nat -> (3 <= na)%nat -> INR np * INR np * INR na <= bpow radix2 23 -> (6 * na * (np - 1) < W)%nat -> meq hidentity hidentity = true ->
    trig_accurate (bpow radix2 (-52)) f g pi -> equal_within L 0 ->
    let o := s_origin s : vec b64 3 in let r := B2R (s_radius s : b64) in
    finite_pt o -> is_finite (s_radius s : b64) = true -> bpow radix2 (-180) <= r <= bpow radix2 180 ->
    (forall i, (i < 3)%nat -> Rabs (fval i o) <= bpow radix2 20 * r) ->
    exists m, mb_sphere L W meq dbg self SZ np na o0 s = Ok m /\ length (m_facets m) = (2 * na * (np - 1))%nat /\ float_outward self m (vreal o) /\ float_vertices_outward L self m (vreal o).
Proof.
  intros f g h pi S L W meq dbg self SZ np na o0 s Hnp Hna HN HW Hid Ht HL o r Fo Fr Hr Ho .
  destruct (sphere_double_ready f g h pi L W meq dbg self SZ np na o0 s Hnp Hna (Rle_trans _ _ _ HN (bpow_le radix2 23 30 ltac:(lia))) HW Hid Ht HL Fo Fr Hr Ho) as (m & Em & Hl & Hrd).
  exists m. split; [exact Em|]. split; [exact Hl|]. split; [exact (ready_outward f g h pi L self m _ _ _ _ _ _ Hrd)|].
  set (N := INR np * INR np * INR na) in *. assert (P : 2 <= INR np) by exact (INR_p np Hnp). assert (A : 3 <= INR na) by exact (INR_a na Hna).
  assert (N0 : 0 < N) by (unfold N; repeat apply Rmult_lt_0_compat; lra).
  assert (HNN : 100 * uround 53 * (N * N) <= 1).
  { assert (N * N <= bpow radix2 23 * bpow radix2 23) by (apply Rmult_le_compat; lra). unfold uround. change (- (53))%Z with (-53)%Z.
    apply Rle_trans with (100 * bpow radix2 (-53) * (bpow radix2 23 * bpow radix2 23)); [apply Rmult_le_compat_l; [pose proof (bpow_gt_0 radix2 (-53)); lra|assumption]|].
    replace (100 * bpow radix2 (-53) * (bpow radix2 23 * bpow radix2 23)) with (100 * (bpow radix2 (-53) * bpow radix2 23 * bpow radix2 23)) by ring. rewrite <- !bpow_plus. cbn. lra. }
  destruct (sphere_counts 53 np na Hnp Hna HNN) as (A1 & A2 & A3 & A4). fold N in A1, A2, A4.
  apply (ready_vertices f g h pi L self m _ _ _ _ _ _ (2 / (3 * N)) Hrd A1); [rewrite A2; right; field; lra|exact A3|exact A4].
Qed.
Print Assumptions C80_sphere_double.

Theorem C80_cone_float :
  forall p e Hp He, (2 < p)%Z -> forall f g h pi,
  let S := IEEE p e Hp He f g h pi in
  forall (L : Linal S) W meq dbg self SZ (rot_align : hvec S -> hvec S -> hmat S) (k K : Z) (na : nat) (co : cone S) (A : vec (vec R 3) 3) (d t M : R),
    (3 <= na)%nat -> (6 * na < W)%nat ->
    trig_accurate d f g pi -> equal_within L t -> identity_within meq t -> (3 - e - p <= 2 * k)%Z ->
    let seg := co_segment co in
    let src := g_source seg : vec (binary_float p e) 3 in let tgt := g_target seg : vec (binary_float p e) 3 in
    let r := B2R (co_radius co : binary_float p e) in let l := rdist (vreal tgt) (vreal src) in
    in_reach tgt src -> (forall i, (i < 3)%nat -> Rabs (fval i src) <= M) -> M <= bpow radix2 (e - 4) ->
    is_finite (co_radius co : binary_float p e) = true -> 0 < r -> r + l <= bpow radix2 (e - 4) ->
    rotation_onto A (rdirection (rsub (vreal tgt) (vreal src))) ->
    rotation_within d A (rot_align (mk4 s0 s0 s1 s1) (to_hvec (segment_direction seg))) ->
    (dbg = true -> isZero L (leps L) (segment_length seg) = false /\ isEq L (leps L) (vlength (segment_direction seg)) s1 = true) ->
    let c := 150 * (d * (r + l)) + 10 * bpow radix2 k + 4 * (uround p * M) + t * (1 + 3 * (r + l)) in
    INR na * (2 * c + t + bpow radix2 k) <= r -> 2 * (2 * c + t + bpow radix2 k) <= l ->
    16 * ((r + l) * (r + l)) * c * INR na <= r * r * l -> scale_frame p e K (r + l) (r * r * l / INR na) ->
    let kap := INR na * ((r + l) * (r + l) * (r + l)) / (r * r * l) in 5500 * uround p * (kap * kap) <= 1 ->
    exists m, mb_cone L W meq dbg self SZ rot_align na co = Ok (Some m) /\ length (m_facets m) = (2 * na)%nat /\
      float_outward self m (rscale (1 / 2) (radd (vreal src) (vreal tgt))) /\ float_vertices_outward L self m (rscale (1 / 2) (radd (vreal src) (vreal tgt))).
Proof.
  intros p e Hp He H2 f g h pi S L W meq dbg self SZ rot_align k K na co A d t M Hna HW Ht HL Hm Hk seg src tgt r l HR HsM HM Fr Hr Hre HA HX Hdbg c Hs1 Hs2 Hout Hfr kap Hkap.
  destruct (cone_ready p e Hp He H2 f g h pi L W meq dbg self SZ rot_align k K na co A d t M Hna HW Ht HL Hm Hk HR HsM HM Fr Hr Hre HA HX Hdbg Hs1 Hs2 Hout Hfr) as (m & Em & Hl & Hrd).
  exists m. split; [exact Em|]. split; [exact Hl|]. split; [exact (ready_outward f g h pi L self m _ _ _ _ _ _ Hrd)|].
  assert (Hl0 : 0 < l).
  { pose proof (bpow_gt_0 radix2 k) as b0. pose proof (ew_slack _ _ HL) as t0. pose proof (@u_pos p) as Hu. pose proof (ta_round _ _ _ _ Ht) as Hud.
    assert (M0 : 0 <= M) by (eapply Rle_trans; [apply Rabs_pos|apply (HsM 0%nat); lia]). assert (0 <= uround p * M) by (apply Rmult_le_pos; lra).
    pose proof (rnorm_nonneg (rsub (vreal tgt) (vreal src)) : 0 <= l) as l0.
    assert (0 <= d * (r + l)) by (apply Rmult_le_pos; lra). assert (0 <= t * (1 + 3 * (r + l))) by (apply Rmult_le_pos; lra). unfold c in Hs2. lra. }
  destruct (round_counts p na 2 r l Hna ltac:(lia) Hr Hl0 Hkap) as (A1 & A2 & A3 & A4). fold kap in A1, A2, A4.
  apply (ready_vertices f g h pi L self m _ _ _ _ _ _ (1 / (12 * kap)) Hrd A1); [exact (Req_le _ _ A2)|exact A3|exact A4].
Qed.
Print Assumptions C80_cone_float.

Theorem C80_cylinder_float :
  forall p e Hp He, (2 < p)%Z -> forall f g h pi,
  let S := IEEE p e Hp He f g h pi in
  forall (L : Linal S) W meq dbg self SZ (rot_align : hvec S -> hvec S -> hmat S) (k K : Z) (na : nat) (cy : cylinder S) (A : vec (vec R 3) 3) (d t M : R),
    (3 <= na)%nat -> (12 * na < W)%nat ->
    trig_accurate d f g pi -> equal_within L t -> identity_within meq t -> (3 - e - p <= 2 * k)%Z ->
    let seg := cy_segment cy in
    let src := g_source seg : vec (binary_float p e) 3 in let tgt := g_target seg : vec (binary_float p e) 3 in
    let r := B2R (cy_radius cy : binary_float p e) in let l := rdist (vreal tgt) (vreal src) in
    in_reach tgt src -> (forall i, (i < 3)%nat -> Rabs (fval i src) <= M) -> M <= bpow radix2 (e - 4) ->
    is_finite (cy_radius cy : binary_float p e) = true -> 0 < r -> r + l <= bpow radix2 (e - 4) ->
    rotation_onto A (rdirection (rsub (vreal tgt) (vreal src))) ->
    rotation_within d A (rot_align (mk4 s0 s0 s1 s1) (to_hvec (segment_direction seg))) ->
    let c := 150 * (d * (r + l)) + 10 * bpow radix2 k + 4 * (uround p * M) + t * (1 + 3 * (r + l)) in
    INR na * (2 * c + t + bpow radix2 k) <= r -> 2 * (2 * c + t + bpow radix2 k) <= l ->
    16 * ((r + l) * (r + l)) * c * INR na <= r * r * l -> scale_frame p e K (r + l) (r * r * l / INR na) ->
    let kap := INR na * ((r + l) * (r + l) * (r + l)) / (r * r * l) in 5500 * uround p * (kap * kap) <= 1 ->
    exists m, mb_cylinder L W meq dbg self SZ rot_align na cy = Ok (Some m) /\ length (m_facets m) = (4 * na)%nat /\
      float_outward self m (rscale (1 / 2) (radd (vreal src) (vreal tgt))) /\ float_vertices_outward L self m (rscale (1 / 2) (radd (vreal src) (vreal tgt))).
Proof.
  intros p e Hp He H2 f g h pi S L W meq dbg self SZ rot_align k K na cy A d t M Hna HW Ht HL Hm Hk seg src tgt r l HR HsM HM Fr Hr Hre HA HX c Hs1 Hs2 Hout Hfr kap Hkap.
  destruct (cylinder_ready p e Hp He H2 f g h pi L W meq dbg self SZ rot_align k K na cy A d t M Hna HW Ht HL Hm Hk HR HsM HM Fr Hr Hre HA HX Hs1 Hs2 Hout Hfr) as (m & Em & Hl & Hrd).
  exists m. split; [exact Em|]. split; [exact Hl|]. split; [exact (ready_outward f g h pi L self m _ _ _ _ _ _ Hrd)|].
  assert (Hl0 : 0 < l).
  { pose proof (bpow_gt_0 radix2 k) as b0. pose proof (ew_slack _ _ HL) as t0. pose proof (@u_pos p) as Hu. pose proof (ta_round _ _ _ _ Ht) as Hud.
    assert (M0 : 0 <= M) by (eapply Rle_trans; [apply Rabs_pos|apply (HsM 0%nat); lia]). assert (0 <= uround p * M) by (apply Rmult_le_pos; lra).
    pose proof (rnorm_nonneg (rsub (vreal tgt) (vreal src)) : 0 <= l) as l0.
    assert (0 <= d * (r + l)) by (apply Rmult_le_pos; lra). assert (0 <= t * (1 + 3 * (r + l))) by (apply Rmult_le_pos; lra). unfold c in Hs2. lra. }
  destruct (round_counts p na 4 r l Hna ltac:(lia) Hr Hl0 Hkap) as (A1 & A2 & A3 & A4). fold kap in A1, A2, A4.
  apply (ready_vertices f g h pi L self m _ _ _ _ _ _ (1 / (12 * kap)) Hrd A1); [exact (Req_le _ _ A2)|exact A3|exact A4].
Qed.
Print Assumptions C80_cylinder_float.

(** The hypotheses are met: the solids of C32, C33 and C52 in exact arithmetic; in double
    precision the sphere of C68 (16 times 32 steps), and a cylinder with radius 2, length 4
    and 32 steps as in C79. *)
Example C80_example :
  INR 16 * INR 16 * INR 32 <= bpow radix2 23 /\
  let kap := INR 32 * ((2 + 4) * (2 + 4) * (2 + 4)) / (2 * 2 * 4) in 5500 * uround 53 * (kap * kap) <= 1.
Proof.
  split; [cbn; lra|]. intros kap. assert (E32 : INR 32 = 32) by (cbn; ring). assert (Ek : kap = 432) by (unfold kap; rewrite E32; field). rewrite Ek.
  assert (u9 : uround 53 <= bpow radix2 (-40)) by (apply bpow_le; lia). assert (1099511627776 * bpow radix2 (-40) = 1) by (cbn; lra). lra.
Qed.
