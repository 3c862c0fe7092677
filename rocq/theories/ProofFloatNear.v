(** * Lemmas: normals of tessellations in floating point, near those of the surface *)

From Coq Require Import List Arith Bool Lia Reals Lra ZArith Permutation Sorted.
From Flocq Require Import Core BinarySingleNaN.
From Verif Require Import Scalar Linal Result SpecReal VecR VecLemmas SpecIEEE SpecTransform SpecFloatErr SpecFloatTess SpecFloatSkew SpecFloatNormal SpecFloatOut SpecVertexOut SpecConvex SpecFloatConvex SpecFloatNear
  ModelKdTree SpecKdTree ModelShapes ModelTransform ModelMesh SpecMesh ModelTess SpecTess ProofTransform
  ProofMesh ProofMeshOpp ProofMeshValid ProofMeshNormal ProofTessComb ProofTessConn ProofTessMesh ProofTessSphere ProofTessRound ProofTess ProofVolume ProofArea ProofConvex
  ProofRound ProofIEEE ProofFloatErr ProofFloatDist ProofFloatTrig ProofFloatSkew ProofFloatNormal ProofFloatOut ProofVertexOut ProofVertexNear PropFloatNormal.
Import ListNotations.
Local Open Scope R_scope.

(** the plane of a triangle stays clear of a ball that lies behind it *)
Lemma normal_clear (N o q0 q1 q2 : vec R 3) rho : 0 <= rho -> unit_normal N q0 q1 q2 -> (forall c, rdist c o <= rho -> behind q0 q1 q2 c) ->
  rho <= rdot N (rsub q0 o) /\ rho <= rdot N (rsub q1 o) /\ rho <= rdot N (rsub q2 o).
Proof.
  intros H0 (U1 & U2 & U3 & U4) H. set (C := rcross (rsub q1 q0) (rsub q2 q0)) in *.
  assert (HC : C <> rzero) by (intros Z; rewrite Z, rdot_comm, rdot_zero_l in U4; lra).
  assert (UC : unit_normal (rscale (/ rnorm C) C) q0 q1 q2).
  { split; [apply rnorm_normalize, HC|]. split; [rewrite rdot_scale_l; unfold C; rewrite cross_side1; ring|]. split; [rewrite rdot_scale_l; unfold C; rewrite cross_side2; ring|].
    fold C. rewrite rdot_scale_l. apply Rmult_lt_0_compat; [apply normalize_nonzero, HC|]. rewrite <- rnorm_sq. assert (0 < rnorm C) by (destruct (Req_dec (rnorm C) 0) as [Z|Z]; [exfalso; apply HC; apply rnorm_zero; exact Z|pose proof (rnorm_nonneg C); lra]). apply Rmult_lt_0_compat; assumption. }
  assert (E : N = rscale (/ rnorm C) C) by (apply (unit_normal_unique _ _ q0 q1 q2); [repeat split; assumption|exact UC]).
  assert (K : rho <= rdot N (rsub q0 o)).
  { rewrite E. apply plane_clear; [exact H0|exact HC|]. intros c Hc. rewrite <- behind_sixvol. exact (H c Hc). }
  assert (T : forall x : vec R 3, rdot N (rsub x o) = rdot N (rsub x q0) + rdot N (rsub q0 o)) by (intros x; clear; v3; ring).
  split; [exact K|]. rewrite (T q1), (T q2), U2, U3. split; lra.
Qed.

Lemma mesh_near {p e : Z} {Hp : Prec_gt_0 p} {He : Prec_lt_emax p e} fc fs fa fpi (L : Linal (IEEE p e Hp He fc fs fa fpi)) (self : addr)
    (G : point (IEEE p e Hp He fc fs fa fpi) -> Prop) (HG : veq_on L G) {V} (tris : list (V * V * V)) (fp : V -> point (IEEE p e Hp He fc fs fa fpi))
    (m : mesh (IEEE p e Hp He fc fs fa fpi)) (ok : V -> Prop) (rp : V -> vec R 3) (o : vec R 3) (R0 c D sg rho : R) (K : Z) :
  well_formed L self (solid_triangles (IEEE p e Hp He fc fs fa fpi) tris fp) m -> (forall x y z, In (x, y, z) tris -> ok x /\ ok y /\ ok z) ->
  (forall v, ok v -> G (fp v)) -> (forall v, ok v -> close_to c (fp v : vec (binary_float p e) 3) (rp v)) -> (forall v, ok v -> rdist (rp v) o <= R0) ->
  (forall x y z, In (x, y, z) tris -> D <= sixvol o (rp z) (rp y) (rp x)) -> 0 < D ->
  16 * (R0 * R0) * c <= D -> 500 * uround p * (R0 * R0 * R0) <= D -> 1024 * uround p <= 1 -> scale_frame p e K R0 D ->
  0 < sg -> 12 * sg * (R0 * R0 * R0) <= D -> 0 < rho -> (forall q, rdist q o <= rho -> float_enclosed m q) ->
  let cnt := INR (3 * length tris) in let nu := rho / (R0 + 2 * c) in
  32 * cnt * uround p <= 1 -> 13 * uround p <= nu - 36 * uround p / sg - 6 / 5 * cnt * uround p ->
  float_vertex_normals L self m (fun q n => nu - 36 * uround p / sg - (12 / 5 * cnt + 12) * uround p <= rdot n (rdirection (rsub q o))) /\
  float_facet_normals self m (fun q n => nu - 24 * uround p / sg <= rdot n (rdirection (rsub q o))).
Proof.
  intros Hw Hok HGp Hc HR HD D0 H16 H500 Hu Hfr sgp Hsg r0 Henc cnt nu Hc32 Hc13. pose proof (@u_pos p) as U.
  set (q0 := mk3 (@s0 (IEEE p e Hp He fc fs fa fpi)) (@s0 (IEEE p e Hp He fc fs fa fpi)) (@s0 (IEEE p e Hp He fc fs fa fpi)) : point (IEEE p e Hp He fc fs fa fpi)).
  set (W := fun v => rdirection (rsub (vreal (nth v (m_points m) q0 : vec (binary_float p e) 3)) o)).
  assert (Hf : forall k f, nth_error (m_facets m) k = Some f ->
    exists (p0 p1 p2 : vec (binary_float p e) 3) N, facet_points m k p0 p1 p2 /\ finite_pt p0 /\ finite_pt p1 /\ finite_pt p2 /\
      triangle_frame p e K (vreal p0) (vreal p1) (vreal p2) /\ sg <= corner_sine (vreal p0) (vreal p1) (vreal p2) /\
      unit_normal N (vreal p0) (vreal p1) (vreal p2) /\
      forall i he (q : vec (binary_float p e) 3), nth_error (m_halfedges m) i = Some he -> he_facet he = k -> nth_error (m_points m) (he_vertex he) = Some q ->
        0 < rnorm (rsub (vreal q) o) /\ nu <= rdot N (rdirection (rsub (vreal q) o))).
  { intros k f Hf.
    destruct (solid_facet L self G HG tris fp m Hw) with (k := k) (f := f) as (x & y & z & Hin & Hpt & Htri & Hall).
    { intros x y z Hin. destruct (Hok x y z Hin) as (A & B & C). auto. }
    { exact Hf. }
    destruct (Hok x y z Hin) as (Ox & Oy & Oz).
    assert (FF : forall v, ok v -> finite_pt (fp v : vec (binary_float p e) 3)) by (intros v Hv; apply (Hc v Hv)).
    destruct (facet_sides fc fs fa fpi (fp z) (fp y) (fp x) (rp z) (rp y) (rp x) o R0 (2 * c) D sg K (FF z Oz) (FF y Oy) (FF x Ox)
      (close_dist _ _ _ (Hc z Oz)) (close_dist _ _ _ (Hc y Oy)) (close_dist _ _ _ (Hc x Ox)) (HR z Oz) (HR y Oy) (HR x Ox) (HD x y z Hin) D0) as (A1 & A2 & N & A3 & A4);
      [lra|assumption|assumption|assumption|assumption|assumption|].
    exists (fp z), (fp y), (fp x), N. split; [exact Hpt|]. split; [apply FF, Oz|]. split; [apply FF, Oy|]. split; [apply FF, Ox|]. split; [exact A1|]. split; [exact A2|]. split; [exact A3|].
    destruct (normal_clear N o (vreal (fp z : vec (binary_float p e) 3)) (vreal (fp y : vec (binary_float p e) 3)) (vreal (fp x : vec (binary_float p e) 3)) rho (Rlt_le _ _ r0) A3) as (B0 & B1 & B2).
    { intros w Hwo. destruct (Henc w Hwo f (nth_error_In _ _ Hf)) as (y0 & y1 & y2 & Ey & Hb). rewrite Htri in Ey. injection Ey as -> -> ->. exact Hb. }
    assert (ND : forall v, ok v -> rdist (vreal (fp v : vec (binary_float p e) 3)) o <= R0 + 2 * c).
    { intros v Hv. eapply Rle_trans; [apply (rdist_triangle _ (rp v))|]. pose proof (HR v Hv). pose proof (close_dist _ _ _ (Hc v Hv)). lra. }
    intros i he q Hh Hk Hq. pose proof (A4 q (Hall _ he q Hh Hk Hq)) as (Q & _). split; [exact Q|].
    assert (T : rho <= rdot N (rsub (vreal q) o) /\ rnorm (rsub (vreal q) o) <= R0 + 2 * c).
    { destruct (Hall _ he q Hh Hk Hq) as [-> | [-> | ->]]; split; first [assumption|apply ND; assumption]. }
    destruct T as (T1 & T2). set (l := rnorm (rsub (vreal q) o)) in *. unfold rdirection. fold l. rewrite rdot_scale_r.
    unfold nu. apply Rle_trans with (rho / l).
    - unfold Rdiv. apply Rmult_le_compat_l; [lra|]. apply Rinv_le; assumption.
    - unfold Rdiv. rewrite Rmult_comm. apply Rmult_le_compat_l; [|exact T1]. left. apply Rinv_0_lt_compat, Q. }
  assert (Hfacet : forall k c' he, (c' < 3)%nat -> nth_error (m_halfedges m) (3 * k + c') = Some he ->
    exists (p0 p1 p2 : vec (binary_float p e) 3) N, facet_points m k p0 p1 p2 /\ finite_pt p0 /\ finite_pt p1 /\ finite_pt p2 /\
      triangle_frame p e K (vreal p0) (vreal p1) (vreal p2) /\ sg <= corner_sine (vreal p0) (vreal p1) (vreal p2) /\
      unit_normal N (vreal p0) (vreal p1) (vreal p2) /\ 0 < rnorm (rsub (vreal (nth (he_vertex he) (m_points m) q0 : vec (binary_float p e) 3)) o) /\ nu <= rdot N (W (he_vertex he))).
  { intros k c' he Hc3 Hh. destruct (halfedge_facet L self _ m k c' he Hw Hc3 Hh) as (Hk & (f & Hff) & q & Hq).
    destruct (Hf k f Hff) as (p0 & p1 & p2 & N & B1 & B2 & B3 & B4 & B5 & B6 & B7 & B8).
    exists p0, p1, p2, N. repeat (split; [assumption|]). pose proof (B8 _ he q Hh Hk Hq) as Q. unfold W. rewrite (nth_error_nth _ _ q0 Hq). exact Q. }
  assert (Hdir : forall v x, nth_error (m_vertices m) v = Some x -> exists q, nth_error (m_points m) v = Some q /\ 0 < rnorm (rsub (vreal (q : vec (binary_float p e) 3)) o)).
  { intros v x Hv. destruct (wf_vertex _ _ _ _ Hw v x Hv) as (_ & _ & V3 & _ & V5). destruct (v_hes x) as [|i l]; [congruence|].
    destruct (proj1 (V5 i) (or_introl eq_refl)) as (h & Hh & Eh). assert (Hi : i = (3 * (i / 3) + i mod 3)%nat) by (apply Nat.div_mod; lia). rewrite Hi in Hh.
    assert (C3 : (i mod 3 < 3)%nat) by (apply Nat.mod_upper_bound; lia).
    destruct (halfedge_facet L self _ m _ _ h Hw C3 Hh) as (_ & _ & q & Hq). destruct (Hfacet _ _ h C3 Hh) as (? & ? & ? & ? & _ & _ & _ & _ & _ & _ & _ & Z & _).
    rewrite Eh in Hq, Z. exists q. split; [exact Hq|]. rewrite (nth_error_nth _ _ q0 Hq) in Z. exact Z. }
  assert (Deg : forall v x, nth_error (m_vertices m) v = Some x -> INR (length (v_hes x)) * uround p <= cnt * uround p).
  { intros v x Hv. apply Rmult_le_compat_r; [lra|]. unfold cnt. apply le_INR. pose proof (degree_le L self _ m v x Hw Hv) as Q. rewrite (wf_halfedge_count _ _ _ _ Hw) in Q. unfold solid_triangles in Q. rewrite !map_length in Q. exact Q. }
  split.
  - destruct (C77_all_normals p e Hp He fc fs fa fpi L self _ m Hw Hu W nu sg sgp) as (ns & E & Hl & H).
    { intros v x Hv. destruct (Hdir v x Hv) as (q & Hq & Z). split.
      { unfold W. rewrite (nth_error_nth _ _ q0 Hq). apply rnorm_normalize. intros Q. rewrite Q, rnorm_rzero in Z. lra. }
      split.
      { intros k c' he Hc3 Hh Ev. destruct (Hfacet k c' he Hc3 Hh) as (p0 & p1 & p2 & N & B1 & B2 & B3 & B4 & B5 & B6 & B7 & _ & B8). rewrite Ev in B8.
        exists p0, p1, p2, K, N. repeat (split; [assumption|]). exact B8. }
      intros cn. pose proof (Deg v x Hv : cn * uround p <= cnt * uround p). unfold facet_bound2. split; lra. }
    exists ns. split; [exact E|]. split; [rewrite <- (wf_vertex_count _ _ _ _ Hw); exact Hl|].
    intros v n q Hn Hq. destruct (H v n Hn) as (A1 & A2 & _ & x & Hx & A3). split; [exact A1|]. split; [exact A2|].
    unfold W in A3. rewrite (nth_error_nth _ _ q0 Hq) in A3. cbv zeta in A3. unfold facet_bound2 in A3. pose proof (Deg v x Hx). lra.
  - intros k f Hff. destruct (Hf k f Hff) as (p0 & p1 & p2 & N & B1 & B2 & B3 & B4 & B5 & B6 & B7 & B8).
    destruct (C77_facet_normal p e Hp He fc fs fa fpi L self _ m Hw Hu k f p0 p1 p2 Hff B1 B2 B3 B4 K B5) as (n & En & Fn & Un & N' & UN & Dn).
    rewrite (unit_normal_unique _ _ _ _ _ UN B7) in Dn. exists n. split; [exact En|]. split; [exact Fn|]. split; [exact Un|].
    intros i he q Hh Hk Hq. destruct (B8 i he q Hh Hk Hq) as (Z & Q).
    assert (W1 : rnorm (rdirection (rsub (vreal q) o)) = 1) by (apply rnorm_normalize; intros X; rewrite X, rnorm_rzero in Z; lra).
    pose proof (side_near _ _ _ _ W1 Dn) as T. eapply Rle_trans; [|exact T]. apply Rplus_le_compat; [exact Q|]. apply Ropp_le_contravar. unfold facet_bound, Rdiv. apply Rmult_le_compat_l; [lra|]. apply Rinv_le; assumption.
Qed.

Lemma ready_near {p e : Z} {Hp : Prec_gt_0 p} {He : Prec_lt_emax p e} fc fs fa fpi (L : Linal (IEEE p e Hp He fc fs fa fpi)) self m o R0 c D K N sg rho :
  ready L self m o R0 c D K N -> 0 < sg -> 12 * sg * (R0 * R0 * R0) <= D -> 0 < rho -> (forall q, rdist q o <= rho -> float_enclosed m q) ->
  let cnt := INR (3 * N) in let nu := rho / (R0 + 2 * c) in
  32 * cnt * uround p <= 1 -> 13 * uround p <= nu - 36 * uround p / sg - 6 / 5 * cnt * uround p ->
  float_vertex_normals L self m (fun q n => nu - 36 * uround p / sg - (12 / 5 * cnt + 12) * uround p <= rdot n (rdirection (rsub q o))) /\
  float_facet_normals self m (fun q n => nu - 24 * uround p / sg <= rdot n (rdirection (rsub q o))).
Proof.
  intros ((V & G & tris & fp & ok & rp & H1 & <- & H2 & H3 & H4 & H5 & H6 & H7) & H8 & H9 & H10 & H11 & H12).
  exact (mesh_near fc fs fa fpi L self G H1 tris fp m ok rp o R0 c D sg rho K H2 H3 H4 H5 H6 H7 H8 H9 H10 H11 H12).
Qed.

(** ** Angles of the sphere *)
Lemma half_cos p a : (2 <= p)%nat -> (3 <= a)%nat -> let k := cos (PI / INR p / 2) * cos (PI / INR a) in 1 / 4 <= k <= 1 /\
  2 * (1 - k) <= PI / (2 * INR p) * (PI / (2 * INR p)) + PI / INR a * (PI / INR a).
Proof.
  intros Hp Ha. cbv zeta. set (x := PI / INR p / 2) in *. set (y := PI / INR a) in *.
  pose proof (le_INR 2 p Hp) as P2. pose proof (le_INR 3 a Ha) as A3. cbn [INR] in P2, A3. pose proof PI_RGT_0 as pi0. pose proof PI_4 as pi4.
  assert (Hx : 0 < x <= 1).
  { unfold x. split; [apply Rdiv_lt_0_compat; [apply Rdiv_lt_0_compat; lra|lra]|]. apply Rmult_le_reg_r with 2; [lra|]. replace (PI / INR p / 2 * 2) with (PI / INR p) by (field; lra).
    apply Rmult_le_reg_r with (INR p); [lra|]. unfold Rdiv. rewrite Rmult_assoc, Rinv_l by lra. lra. }
  assert (Hy : 0 < y <= 4 / 3 /\ y <= PI / 3).
  { assert (Y : y <= PI / 3) by (unfold y, Rdiv; apply Rmult_le_compat_l; [lra|]; apply Rinv_le; lra).
    split; [split; [apply Rdiv_lt_0_compat; lra|lra]|exact Y]. }
  replace (PI / (2 * INR p)) with x by (unfold x; field; lra).
  pose proof (cos_low x ltac:(lra)) as Cx. pose proof (cos_low y ltac:(lra)) as Cy. pose proof (COS_bound x) as Bx. pose proof (COS_bound y) as By.
  assert (Y2 : 1 / 2 <= cos y). { rewrite <- cos_PI3. apply cos_decr_1; lra. }
  assert (xx : x * x <= 1 * 1) by (apply Rmult_le_compat; lra).
  assert (1 / 2 * (1 / 2) <= cos x * cos y) by (apply Rmult_le_compat; lra).
  assert (cos x * cos y <= 1 * 1) by (apply Rmult_le_compat; lra).
  assert (0 <= (1 - cos x) * (1 - cos y)) by (apply Rmult_le_pos; lra). replace (cos x * cos y) with (cos x + cos y - 1 + (1 - cos x) * (1 - cos y)) in * by ring. lra.
Qed.

(** a vector of length almost one with a large scalar product with a unit vector is near *)
Lemma almost_near (n w : vec R 3) x y P k ep u0 : rnorm w = 1 -> Rabs (rnorm n - 1) <= 6 * u0 -> 0 <= u0 <= 1 / 1024 -> 0 < x -> 0 < y -> 0 <= ep -> 0 < P -> 3 / 2 <= x * P ->
  2 * (1 - k) <= x * x + y * y -> k - ep <= rdot n w -> rdist n w <= x + y + P * (ep + 7 * u0).
Proof.
  intros Hw Hn Hu Hx Hy He HP HxP Hk H. set (t := P * (ep + 7 * u0)). assert (t0 : 0 <= t) by (apply Rmult_le_pos; lra).
  assert (Q : rdist n w * rdist n w = rnorm n * rnorm n - 2 * rdot n w + 1).
  { unfold rdist. pose proof (rnorm_sq (rsub n w)) as Q. pose proof (rnorm_sq n) as Qn. pose proof (rnorm_sq w) as Qw. rewrite Hw in Qw. rewrite Q, Qn. replace (rdot (rsub n w) (rsub n w)) with (rdot n n - 2 * rdot n w + rdot w w); [lra|]. clear. v3. ring. }
  apply Rabs_le_inv in Hn.
  assert (NN : rnorm n * rnorm n <= (1 + 6 * u0) * (1 + 6 * u0)) by (pose proof (rnorm_nonneg n); apply Rmult_le_compat; lra).
  assert (uu : u0 * u0 <= u0 * (1 / 1024)) by (apply Rmult_le_compat_l; lra).
  assert (xt : 3 / 2 * (ep + 7 * u0) <= x * t). { unfold t. rewrite <- Rmult_assoc. apply Rmult_le_compat_r; lra. }
  assert (0 <= y * t) by (apply Rmult_le_pos; lra). assert (0 <= x * y) by (apply Rmult_le_pos; lra). assert (0 <= t * t) by (apply Rle_0_sqr).
  apply Rsqr_incr_0_var; [|lra]. unfold Rsqr. rewrite Q.
  replace ((x + y + t) * (x + y + t)) with (x * x + y * y + t * t + 2 * (x * y) + 2 * (x * t) + 2 * (y * t)) by ring.
  replace ((1 + 6 * u0) * (1 + 6 * u0)) with (1 + 12 * u0 + 36 * (u0 * u0)) in NN by ring. lra.
Qed.
