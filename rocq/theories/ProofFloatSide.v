(** * Lemmas: facet normals in floating point, near those of the exact tessellation *)

From Coq Require Import List Arith Bool Lia Reals Lra ZArith.
From Flocq Require Import Core BinarySingleNaN.
From Verif Require Import Scalar Linal Result SpecReal VecR VecLemmas SpecIEEE SpecFloatErr SpecFloatTess SpecFloatSkew SpecFloatNormal SpecFloatOut SpecFloatNear
  ModelKdTree SpecKdTree ModelShapes ModelTransform ModelMesh SpecMesh ModelTess SpecTess
  ProofMesh ProofMeshOpp ProofMeshValid ProofMeshNormal ProofTessComb ProofTessConn ProofTessMesh ProofVolume ProofConvex
  ProofRound ProofIEEE ProofFloatErr ProofFloatDist ProofFloatSkew ProofFloatLine ProofFloatNormal ProofFloatOut ProofVertexOut ProofVertexNear PropFloatNormal.
Import ListNotations.
Local Open Scope R_scope.

(** moving the corners of a triangle by at most [dl] tilts its normal a little *)
Lemma triangle_tilt (q0 q1 q2 r0 r1 r2 o w N : vec R 3) (R0 dl D k : R) :
  rdist q0 r0 <= dl -> rdist q1 r1 <= dl -> rdist q2 r2 <= dl -> rdist r0 o <= R0 -> rdist r1 o <= R0 -> rdist r2 o <= R0 ->
  D <= sixvol o r0 r1 r2 -> 0 < D -> 8 * (R0 * R0) * dl <= D ->
  rnorm w = 1 -> 0 < k -> rcross (rsub r1 r0) (rsub r2 r0) = rscale k w -> unit_normal N q0 q1 q2 ->
  rdist N w <= 20 * (R0 * R0) * dl / D.
Proof.
  intros M0 M1 M2 I0 I1 I2 HD D0 H8 Hw Hk EC HN. pose proof HN as (U1 & U2 & U3 & U4).
  set (C := rcross (rsub q1 q0) (rsub q2 q0)) in *. set (Cr := rcross (rsub r1 r0) (rsub r2 r0)) in *.
  assert (HC : C <> rzero) by (intros Z; rewrite Z, rdot_comm, rdot_zero_l in U4; lra).
  assert (C0 : 0 < rnorm C) by (destruct (Req_dec (rnorm C) 0) as [Z|Z]; [exfalso; apply HC; apply rnorm_zero; exact Z|pose proof (rnorm_nonneg C); lra]).
  assert (UC : unit_normal (rscale (/ rnorm C) C) q0 q1 q2).
  { split; [apply rnorm_normalize, HC|]. split; [rewrite rdot_scale_l; unfold C; rewrite cross_side1; ring|]. split; [rewrite rdot_scale_l; unfold C; rewrite cross_side2; ring|].
    fold C. rewrite rdot_scale_l. apply Rmult_lt_0_compat; [apply Rinv_0_lt_compat, C0|]. rewrite <- rnorm_sq. apply Rmult_lt_0_compat; assumption. }
  assert (E : N = rscale (/ rnorm C) C) by (apply (unit_normal_unique _ _ q0 q1 q2); [exact HN|exact UC]).
  assert (Ek : rnorm Cr = k) by (rewrite EC, rnorm_scale, Hw, Rabs_right by lra; ring).
  assert (dl0 : 0 <= dl) by (eapply Rle_trans; [apply (rnorm_nonneg (rsub q0 r0))|exact M0]).
  assert (Side : forall x y : vec R 3, rdist x o <= R0 -> rdist y o <= R0 -> rnorm (rsub x y) <= 2 * R0).
  { intros x y Hx Hy. change (rnorm (rsub x y)) with (rdist x y). eapply Rle_trans; [apply (rdist_triangle x o y)|]. rewrite (rdist_sym o y). lra. }
  assert (Move : forall x y x' y' : vec R 3, rdist x x' <= dl -> rdist y y' <= dl -> rdist (rsub x y) (rsub x' y') <= 2 * dl).
  { intros x y x' y' Hx Hy. unfold rdist. replace (rsub (rsub x y) (rsub x' y')) with (radd (rsub x x') (rscale (-1) (rsub y y'))) by (clear; apply eq_by_dot; intros; vring).
    eapply Rle_trans; [apply rnorm_triangle|]. rewrite rnorm_scale, (Rabs_left (-1)) by lra. unfold rdist in Hx, Hy. lra. }
  assert (R1 : 0 <= R0) by (eapply Rle_trans; [apply (rnorm_nonneg (rsub r0 o))|exact I0]).
  assert (DK : D <= k * R0).
  { rewrite <- behind_sixvol in HD. fold Cr in HD. pose proof (cauchy_schwarz Cr (rsub r0 o)) as Q. rewrite Ek in Q. apply Rabs_le_inv in Q.
    assert (k * rnorm (rsub r0 o) <= k * R0) by (apply Rmult_le_compat_l; [lra|exact I0]). lra. }
  assert (K4 : k <= 2 * R0 * (2 * R0)).
  { rewrite <- Ek. eapply Rle_trans; [apply rcross_le|]. apply Rmult_le_compat; try apply rnorm_nonneg; apply Side; assumption. }
  assert (Rp : 0 < R0) by (destruct (Req_dec R0 0) as [Z|Z]; [rewrite Z in DK; lra|lra]).
  assert (dl2 : 2 * dl <= R0).
  { assert (k * R0 <= 2 * R0 * (2 * R0) * R0) by (apply Rmult_le_compat_r; assumption). assert (P : 0 < R0 * R0) by (apply Rmult_lt_0_compat; assumption).
    apply Rmult_le_reg_l with (4 * (R0 * R0)); [lra|]. lra. }
  assert (B : rdist C Cr <= 10 * R0 * dl).
  { eapply Rle_trans; [apply rcross_near|].
    pose proof (Move q1 q0 r1 r0 M1 M0) as A1. pose proof (Move q2 q0 r2 r0 M2 M0) as A2. pose proof (Side r1 r0 I1 I0) as A3. pose proof (Side r2 r0 I2 I0) as A4.
    assert (A5 : rnorm (rsub q2 q0) <= 3 * R0). { pose proof (rnorm_close _ (rsub q2 q0) (rsub r2 r0)) as Q. apply Rabs_le_inv in Q. lra. }
    assert (rdist (rsub q1 q0) (rsub r1 r0) * rnorm (rsub q2 q0) <= 2 * dl * (3 * R0)) by (apply Rmult_le_compat; try apply rnorm_nonneg; assumption).
    assert (rnorm (rsub r1 r0) * rdist (rsub q2 q0) (rsub r2 r0) <= 2 * R0 * (2 * dl)) by (apply Rmult_le_compat; try apply rnorm_nonneg; assumption).
    lra. }
  assert (KN : k * rdist N w <= 20 * R0 * dl).
  { assert (ECN : C = rscale (rnorm C) N). { rewrite E, rscale_scale. rewrite Rinv_r by lra. clear. apply eq_by_dot. intros. vring. }
    assert (V : rscale k (rsub N w) = radd (rscale (k - rnorm C) N) (rsub C Cr)).
    { rewrite EC. rewrite ECN at 2. generalize (rnorm C). clear. intros x. apply eq_by_dot. intros. vring. }
    replace (k * rdist N w) with (rnorm (rscale k (rsub N w))) by (rewrite rnorm_scale, Rabs_right by lra; reflexivity). rewrite V.
    eapply Rle_trans; [apply rnorm_triangle|]. rewrite rnorm_scale, U1, Rmult_1_r. pose proof (rnorm_close _ C Cr) as Q. rewrite Ek, Rabs_minus_sym in Q. unfold rdist in Q, B. lra. }
  apply Rmult_le_reg_r with D; [exact D0|]. replace (20 * (R0 * R0) * dl / D * D) with (20 * R0 * dl * R0) by (field; lra).
  apply Rle_trans with (rdist N w * (k * R0)); [apply Rmult_le_compat_l; [apply rnorm_nonneg|exact DK]|].
  replace (rdist N w * (k * R0)) with (k * rdist N w * R0) by ring. apply Rmult_le_compat_r; assumption.
Qed.

Lemma mesh_sides {p e : Z} {Hp : Prec_gt_0 p} {He : Prec_lt_emax p e} fc fs fa fpi (L : Linal (IEEE p e Hp He fc fs fa fpi)) (self : addr)
    (G : point (IEEE p e Hp He fc fs fa fpi) -> Prop) (HG : veq_on L G) {V} (tris : list (V * V * V)) (fp : V -> point (IEEE p e Hp He fc fs fa fpi))
    (m : mesh (IEEE p e Hp He fc fs fa fpi)) (ok : V -> Prop) (rp : V -> vec R 3) (o : vec R 3) (R0 c D : R) (K : Z) (nor : V * V * V -> vec R 3) :
  well_formed L self (solid_triangles (IEEE p e Hp He fc fs fa fpi) tris fp) m -> (forall x y z, In (x, y, z) tris -> ok x /\ ok y /\ ok z) ->
  (forall v, ok v -> G (fp v)) -> (forall v, ok v -> close_to c (fp v : vec (binary_float p e) 3) (rp v)) -> (forall v, ok v -> rdist (rp v) o <= R0) ->
  (forall x y z, In (x, y, z) tris -> D <= sixvol o (rp z) (rp y) (rp x)) -> 0 < D -> 0 < R0 ->
  16 * (R0 * R0) * c <= D -> 500 * uround p * (R0 * R0 * R0) <= D -> 1024 * uround p <= 1 -> scale_frame p e K R0 D -> 150 * (uround p * R0) <= c ->
  (forall x y z, In (x, y, z) tris -> rnorm (nor (x, y, z)) = 1 /\ exists k, 0 < k /\ rcross (rsub (rp y) (rp z)) (rsub (rp x) (rp z)) = rscale k (nor (x, y, z))) ->
  forall k f, nth_error (m_facets m) k = Some f -> exists (t : V * V * V) (n : vec (binary_float p e) 3), In t tris /\ calc_facet_normal (only self m) f = Ok n /\ finite_pt n /\
    Rabs (rnorm (vreal n) - 1) <= 6 * uround p /\ rdist (vreal n) (nor t) <= 42 * (R0 * R0) * c / D /\
    forall i he (q : vec (binary_float p e) 3), nth_error (m_halfedges m) i = Some he -> he_facet he = k -> nth_error (m_points m) (he_vertex he) = Some q ->
      exists v, at_corner v t /\ rdist (vreal q) (rp v) <= 2 * c.
Proof.
  intros Hw Hok HGp Hc HR HD D0 Rp H16 H500 Hu Hfr Hcu Hnor k f Hf. pose proof (@u_pos p) as U.
  destruct (solid_facet L self G HG tris fp m Hw) with (k := k) (f := f) as (x & y & z & Hin & Hpt & _ & Hall).
  { intros x y z Hin. destruct (Hok x y z Hin) as (A & B & C). auto. }
  { exact Hf. }
  destruct (Hok x y z Hin) as (Ox & Oy & Oz).
  assert (FF : forall v, ok v -> finite_pt (fp v : vec (binary_float p e) 3)) by (intros v Hv; apply (Hc v Hv)).
  assert (R3 : 0 < R0 * R0 * R0) by (apply Rmult_lt_0_compat; [apply Rmult_lt_0_compat; assumption|assumption]).
  set (sg := D / (12 * (R0 * R0 * R0))). assert (sgp : 0 < sg) by (apply Rdiv_lt_0_compat; lra).
  assert (Hsg : 12 * sg * (R0 * R0 * R0) <= D) by (apply Req_le; unfold sg; field; lra).
  destruct (facet_sides fc fs fa fpi (fp z) (fp y) (fp x) (rp z) (rp y) (rp x) o R0 (2 * c) D sg K (FF z Oz) (FF y Oy) (FF x Ox)
    (close_dist _ _ _ (Hc z Oz)) (close_dist _ _ _ (Hc y Oy)) (close_dist _ _ _ (Hc x Ox)) (HR z Oz) (HR y Oy) (HR x Ox) (HD x y z Hin) D0) as (A1 & A2 & _);
    [lra|assumption|assumption|assumption|assumption|assumption|].
  destruct (C77_facet_normal p e Hp He fc fs fa fpi L self _ m Hw Hu k f (fp z) (fp y) (fp x) Hf Hpt (FF z Oz) (FF y Oy) (FF x Ox) K A1) as (n & En & Fn & Un & N & UN & Dn).
  exists (x, y, z), n. split; [exact Hin|]. split; [exact En|]. split; [exact Fn|]. split; [exact Un|]. split.
  - destruct (Hnor x y z Hin) as (W1 & l & Hl & EC).
    pose proof (triangle_tilt _ _ _ (rp z) (rp y) (rp x) o (nor (x, y, z)) N R0 (2 * c) D l (close_dist _ _ _ (Hc z Oz)) (close_dist _ _ _ (Hc y Oy)) (close_dist _ _ _ (Hc x Ox))
      (HR z Oz) (HR y Oy) (HR x Ox) (HD x y z Hin) D0 ltac:(lra) W1 Hl EC UN) as T.
    eapply Rle_trans; [apply (rdist_triangle _ N)|].
    assert (B : facet_bound p (corner_sine (vreal (fp z : vec (binary_float p e) 3)) (vreal (fp y : vec (binary_float p e) 3)) (vreal (fp x : vec (binary_float p e) 3))) <= 24 * uround p / sg).
    { unfold facet_bound, Rdiv. apply Rmult_le_compat_l; [lra|]. apply Rinv_le; assumption. }
    assert (B2 : 24 * uround p / sg <= 2 * (R0 * R0) * c / D).
    { unfold sg. replace (24 * uround p / (D / (12 * (R0 * R0 * R0)))) with (288 * (uround p * R0) * (R0 * R0) * / D) by (field; lra).
      unfold Rdiv. apply Rmult_le_compat_r; [left; apply Rinv_0_lt_compat, D0|]. assert (P : 0 < R0 * R0) by (apply Rmult_lt_0_compat; assumption).
      assert (0 < uround p * R0) by (apply Rmult_lt_0_compat; assumption). replace (2 * (R0 * R0) * c) with (2 * c * (R0 * R0)) by ring. apply Rmult_le_compat_r; lra. }
    replace (42 * (R0 * R0) * c / D) with (2 * (R0 * R0) * c / D + 20 * (R0 * R0) * (2 * c) / D) by (field; lra).
    apply Rplus_le_compat; [exact (Rle_trans _ _ _ Dn (Rle_trans _ _ _ B B2))|exact T].
  - intros i he q Hh Hk Hq. destruct (Hall _ he q Hh Hk Hq) as [-> | [-> | ->]].
    + exists z. split; [cbn; auto|apply close_dist, Hc, Oz].
    + exists y. split; [cbn; auto|apply close_dist, Hc, Oy].
    + exists x. split; [cbn; auto|apply close_dist, Hc, Ox].
Qed.

(** what is known about one facet of the mesh *)
Lemma mesh_facet {p e : Z} {Hp : Prec_gt_0 p} {He : Prec_lt_emax p e} fc fs fa fpi (L : Linal (IEEE p e Hp He fc fs fa fpi)) (self : addr)
    (G : point (IEEE p e Hp He fc fs fa fpi) -> Prop) (HG : veq_on L G) {V} (tris : list (V * V * V)) (fp : V -> point (IEEE p e Hp He fc fs fa fpi))
    (m : mesh (IEEE p e Hp He fc fs fa fpi)) (ok : V -> Prop) (rp : V -> vec R 3) (o : vec R 3) (R0 c D : R) (K : Z) (nor : V * V * V -> vec R 3) :
  well_formed L self (solid_triangles (IEEE p e Hp He fc fs fa fpi) tris fp) m -> (forall x y z, In (x, y, z) tris -> ok x /\ ok y /\ ok z) ->
  (forall v, ok v -> G (fp v)) -> (forall v, ok v -> close_to c (fp v : vec (binary_float p e) 3) (rp v)) -> (forall v, ok v -> rdist (rp v) o <= R0) ->
  (forall x y z, In (x, y, z) tris -> D <= sixvol o (rp z) (rp y) (rp x)) -> 0 < D -> 0 < R0 ->
  16 * (R0 * R0) * c <= D -> 500 * uround p * (R0 * R0 * R0) <= D -> 1024 * uround p <= 1 -> scale_frame p e K R0 D ->
  (forall x y z, In (x, y, z) tris -> rnorm (nor (x, y, z)) = 1 /\ exists k, 0 < k /\ rcross (rsub (rp y) (rp z)) (rsub (rp x) (rp z)) = rscale k (nor (x, y, z))) ->
  let sg := D / (12 * (R0 * R0 * R0)) in 0 < sg /\
  forall k f, nth_error (m_facets m) k = Some f -> exists (x y z : V) N, In (x, y, z) tris /\ facet_points m k (fp z) (fp y) (fp x) /\
    triangle_frame p e K (vreal (fp z : vec (binary_float p e) 3)) (vreal (fp y : vec (binary_float p e) 3)) (vreal (fp x : vec (binary_float p e) 3)) /\
    sg <= corner_sine (vreal (fp z : vec (binary_float p e) 3)) (vreal (fp y : vec (binary_float p e) 3)) (vreal (fp x : vec (binary_float p e) 3)) /\
    unit_normal N (vreal (fp z : vec (binary_float p e) 3)) (vreal (fp y : vec (binary_float p e) 3)) (vreal (fp x : vec (binary_float p e) 3)) /\
    rdist N (nor (x, y, z)) <= 40 * (R0 * R0) * c / D /\
    forall i he (q : vec (binary_float p e) 3), nth_error (m_halfedges m) i = Some he -> he_facet he = k -> nth_error (m_points m) (he_vertex he) = Some q ->
      exists v, at_corner v (x, y, z) /\ q = fp v.
Proof.
  intros Hw Hok HGp Hc HR HD D0 Rp H16 H500 Hu Hfr Hnor sg. pose proof (@u_pos p) as U.
  assert (R3 : 0 < R0 * R0 * R0) by (apply Rmult_lt_0_compat; [apply Rmult_lt_0_compat; assumption|assumption]).
  assert (sgp : 0 < sg) by (apply Rdiv_lt_0_compat; lra). split; [exact sgp|]. intros k f Hf.
  destruct (solid_facet L self G HG tris fp m Hw) with (k := k) (f := f) as (x & y & z & Hin & Hpt & _ & Hall).
  { intros x y z Hin. destruct (Hok x y z Hin) as (A & B & C). auto. }
  { exact Hf. }
  destruct (Hok x y z Hin) as (Ox & Oy & Oz).
  assert (FF : forall v, ok v -> finite_pt (fp v : vec (binary_float p e) 3)) by (intros v Hv; apply (Hc v Hv)).
  assert (Hsg : 12 * sg * (R0 * R0 * R0) <= D) by (apply Req_le; unfold sg; field; lra).
  destruct (facet_sides fc fs fa fpi (fp z) (fp y) (fp x) (rp z) (rp y) (rp x) o R0 (2 * c) D sg K (FF z Oz) (FF y Oy) (FF x Ox)
    (close_dist _ _ _ (Hc z Oz)) (close_dist _ _ _ (Hc y Oy)) (close_dist _ _ _ (Hc x Ox)) (HR z Oz) (HR y Oy) (HR x Ox) (HD x y z Hin) D0) as (A1 & A2 & N & UN & _);
    [lra|assumption|assumption|assumption|assumption|assumption|].
  exists x, y, z, N. split; [exact Hin|]. split; [exact Hpt|]. split; [exact A1|]. split; [exact A2|]. split; [exact UN|]. split.
  - destruct (Hnor x y z Hin) as (W1 & l & Hl & EC).
    pose proof (triangle_tilt _ _ _ (rp z) (rp y) (rp x) o (nor (x, y, z)) N R0 (2 * c) D l (close_dist _ _ _ (Hc z Oz)) (close_dist _ _ _ (Hc y Oy)) (close_dist _ _ _ (Hc x Ox))
      (HR z Oz) (HR y Oy) (HR x Ox) (HD x y z Hin) D0 ltac:(lra) W1 Hl EC UN) as T.
    replace (40 * (R0 * R0) * c / D) with (20 * (R0 * R0) * (2 * c) / D) by (field; lra). exact T.
  - intros i he q Hh Hk Hq. destruct (Hall _ he q Hh Hk Hq) as [-> | [-> | ->]]; [exists z|exists y|exists x]; (split; [cbn; auto|reflexivity]).
Qed.

Lemma mesh_tops {p e : Z} {Hp : Prec_gt_0 p} {He : Prec_lt_emax p e} fc fs fa fpi (L : Linal (IEEE p e Hp He fc fs fa fpi)) (self : addr)
    (G : point (IEEE p e Hp He fc fs fa fpi) -> Prop) (HG : veq_on L G) {V} (tris : list (V * V * V)) (fp : V -> point (IEEE p e Hp He fc fs fa fpi))
    (m : mesh (IEEE p e Hp He fc fs fa fpi)) (ok : V -> Prop) (rp : V -> vec R 3) (o : vec R 3) (R0 c D : R) (K : Z) (nor : V * V * V -> vec R 3) (W : V -> vec R 3) (nu : V -> R) :
  well_formed L self (solid_triangles (IEEE p e Hp He fc fs fa fpi) tris fp) m -> (forall x y z, In (x, y, z) tris -> ok x /\ ok y /\ ok z) ->
  (forall v, ok v -> G (fp v)) -> (forall v, ok v -> close_to c (fp v : vec (binary_float p e) 3) (rp v)) -> (forall v, ok v -> rdist (rp v) o <= R0) ->
  (forall x y z, In (x, y, z) tris -> D <= sixvol o (rp z) (rp y) (rp x)) -> 0 < D -> 0 < R0 ->
  16 * (R0 * R0) * c <= D -> 500 * uround p * (R0 * R0 * R0) <= D -> 1024 * uround p <= 1 -> scale_frame p e K R0 D -> 150 * (uround p * R0) <= c ->
  (forall x y z, In (x, y, z) tris -> rnorm (nor (x, y, z)) = 1 /\ exists k, 0 < k /\ rcross (rsub (rp y) (rp z)) (rsub (rp x) (rp z)) = rscale k (nor (x, y, z))) ->
  (forall u v, ok u -> ok v -> fp u = fp v -> u = v) -> (forall v, ok v -> rnorm (W v) = 1) ->
  (forall x y z v, In (x, y, z) tris -> at_corner v (x, y, z) -> nu v <= rdot (nor (x, y, z)) (W v)) ->
  let cnt := INR (3 * length tris) in let eps := 43 * (R0 * R0) * c / D + (12 / 5 * cnt + 12) * uround p in
  32 * cnt * uround p <= 1 -> (forall v, ok v -> eps + 13 * uround p <= nu v) ->
  float_vertex_normals L self m (fun q n => exists v, ok v /\ rdist q (rp v) <= 2 * c /\ nu v - eps <= rdot n (W v)).
Proof.
  intros Hw Hok HGp Hc HR HD D0 Rp H16 H500 Hu Hfr Hcu Hnor Hinj HW Hnu cnt eps Hc32 Heps. pose proof (@u_pos p) as U.
  destruct (mesh_facet fc fs fa fpi L self G HG tris fp m ok rp o R0 c D K nor Hw Hok HGp Hc HR HD D0 Rp H16 H500 Hu Hfr Hnor) as (sgp & HF). set (sg := D / (12 * (R0 * R0 * R0))) in *.
  assert (FF : forall v, ok v -> finite_pt (fp v : vec (binary_float p e) 3)) by (intros v Hv; apply (Hc v Hv)).
  assert (B2 : 36 * uround p / sg <= 3 * (R0 * R0) * c / D).
  { assert (P : 0 < R0 * R0) by (apply Rmult_lt_0_compat; assumption). assert (P3 : 0 < R0 * R0 * R0) by (apply Rmult_lt_0_compat; assumption).
    unfold sg. replace (36 * uround p / (D / (12 * (R0 * R0 * R0)))) with (432 * (uround p * R0) * (R0 * R0) * / D) by (field; lra).
    unfold Rdiv. apply Rmult_le_compat_r; [left; apply Rinv_0_lt_compat, D0|]. assert (0 < uround p * R0) by (apply Rmult_lt_0_compat; assumption).
    replace (3 * (R0 * R0) * c) with (3 * c * (R0 * R0)) by ring. apply Rmult_le_compat_r; lra. }
  set (tilt := 40 * (R0 * R0) * c / D) in *.
  assert (Ee : eps = tilt + 3 * (R0 * R0) * c / D + (12 / 5 * cnt + 12) * uround p) by (unfold eps, tilt; field; lra).
  assert (Deg : forall v x, nth_error (m_vertices m) v = Some x -> INR (length (v_hes x)) * uround p <= cnt * uround p).
  { intros v x Hv. apply Rmult_le_compat_r; [lra|]. unfold cnt. apply le_INR. pose proof (degree_le L self _ m v x Hw Hv) as Q. rewrite (wf_halfedge_count _ _ _ _ Hw) in Q. unfold solid_triangles in Q. rewrite !map_length in Q. exact Q. }
  assert (Cor : forall k c' he, (c' < 3)%nat -> nth_error (m_halfedges m) (3 * k + c') = Some he -> exists x y z N u, In (x, y, z) tris /\ at_corner u (x, y, z) /\ ok u /\
    nth_error (m_points m) (he_vertex he) = Some (fp u) /\ facet_points m k (fp z) (fp y) (fp x) /\ ok x /\ ok y /\ ok z /\
    triangle_frame p e K (vreal (fp z : vec (binary_float p e) 3)) (vreal (fp y : vec (binary_float p e) 3)) (vreal (fp x : vec (binary_float p e) 3)) /\
    sg <= corner_sine (vreal (fp z : vec (binary_float p e) 3)) (vreal (fp y : vec (binary_float p e) 3)) (vreal (fp x : vec (binary_float p e) 3)) /\
    unit_normal N (vreal (fp z : vec (binary_float p e) 3)) (vreal (fp y : vec (binary_float p e) 3)) (vreal (fp x : vec (binary_float p e) 3)) /\
    nu u - tilt <= rdot N (W u)).
  { intros k c' he Hc3 Hh. destruct (halfedge_facet L self _ m k c' he Hw Hc3 Hh) as (Hk & (f & Hff) & q & Hq).
    destruct (HF k f Hff) as (x & y & z & N & B1 & B2' & B3 & B4 & B5 & B6 & B7). destruct (B7 _ he q Hh Hk Hq) as (u & Hu' & ->). destruct (Hok x y z B1) as (Ox & Oy & Oz).
    assert (Ou : ok u) by (destruct Hu' as [-> | [-> | ->]]; assumption).
    exists x, y, z, N, u. repeat (split; [assumption|]). pose proof (side_near _ _ _ _ (HW u Ou) B6) as T. pose proof (Hnu x y z u B1 Hu'). lra. }
  assert (Main : forall v x, nth_error (m_vertices m) v = Some x -> exists u, ok u /\ nth_error (m_points m) v = Some (fp u) /\
    exists n : vec (binary_float p e) 3, vertex_normal L (only self m) x = Ok n /\ finite_pt n /\ Rabs (rnorm (vreal n) - 1) <= 6 * uround p /\ nu u - eps <= rdot (vreal n) (W u)).
  { intros v x Hv. destruct (wf_vertex _ _ _ _ Hw v x Hv) as (_ & _ & V3 & _ & V5).
    assert (E0 : exists u, ok u /\ nth_error (m_points m) v = Some (fp u)).
    { destruct (v_hes x) as [|i l]; [congruence|].
      destruct (proj1 (V5 i) (or_introl eq_refl)) as (h & Hh & Eh). assert (Hi : i = (3 * (i / 3) + i mod 3)%nat) by (apply Nat.div_mod; lia). rewrite Hi in Hh.
      assert (C3 : (i mod 3 < 3)%nat) by (apply Nat.mod_upper_bound; lia).
      destruct (Cor _ _ h C3 Hh) as (x0 & y0 & z0 & N & u & _ & _ & Ou & Eu & _). rewrite Eh in Eu. exists u. split; assumption. }
    destruct E0 as (u & Ou & Eu). exists u. split; [exact Ou|]. split; [exact Eu|].
    assert (FS : @faces_side p e Hp He fc fs fa fpi m v (W u) (nu u - tilt) sg).
    { intros k c' he Hc3 Hh Ev. destruct (Cor k c' he Hc3 Hh) as (x0 & y0 & z0 & N & u' & _ & _ & Ou' & Eu' & B1 & Ox & Oy & Oz & B2' & B3 & B4 & B5).
      rewrite Ev, Eu in Eu'. assert (Q : fp u = fp u') by (injection Eu' as Q; exact Q). apply (Hinj u u' Ou Ou') in Q. subst u'.
      exists (fp z0), (fp y0), (fp x0), K, N. split; [exact B1|]. split; [apply FF, Oz|]. split; [apply FF, Oy|]. split; [apply FF, Ox|]. repeat (split; [assumption|]). exact B5. }
    pose proof (Deg v x Hv) as Dg. pose proof (Heps u Ou) as Hep. pose proof (pos_INR (length (v_hes x))) as P0. assert (P1 : 0 <= INR (length (v_hes x)) * uround p) by (apply Rmult_le_pos; lra).
    destruct (C77_vertex_normal p e Hp He fc fs fa fpi L self _ m Hw Hu v x (W u) (nu u - tilt) sg Hv (HW u Ou) sgp FS) as (n & N1 & N2 & N3 & _ & N4 & _).
    - lra.
    - unfold facet_bound2. lra.
    - exists n. split; [exact N1|]. split; [exact N2|]. split; [exact N3|]. unfold facet_bound2 in N4. lra. }
  unfold float_vertex_normals, calc_vertex_normals.
  destruct (mapM_total (vertex_normal L (only self m)) (m_vertices m)) as (ns & En).
  { intros x Hx. destruct (In_nth_error _ _ Hx) as (v & Hv). destruct (Main v x Hv) as (u & _ & _ & n & N1 & _). exists n. exact N1. }
  exists ns. split; [exact En|]. split; [rewrite <- (wf_vertex_count _ _ _ _ Hw); exact (mapM_length _ _ _ En)|]. intros v n q Hn Hq.
  assert (X : exists x, nth_error (m_vertices m) v = Some x /\ vertex_normal L (only self m) x = Ok n).
  { clear - En Hn. revert ns v En Hn. generalize (m_vertices m) as l. induction l as [|x l IH]; intros ns v En Hn; cbn [mapM] in En.
    - apply Ok_inj in En. subst ns. destruct v; discriminate Hn.
    - destruct (vertex_normal L (only self m) x) as [y| | | |] eqn:E1; try discriminate En. cbn [bind] in En. destruct (mapM (vertex_normal L (only self m)) l) as [r| | | |] eqn:E2; try discriminate En. cbn [bind] in En.
      apply Ok_inj in En. subst ns. destruct v as [|v]; [exists x; split; [reflexivity|]; rewrite E1; f_equal; injection Hn as Hn; exact Hn|]. exact (IH r v eq_refl Hn). }
  destruct X as (x & Hx & Ex). destruct (Main v x Hx) as (u & Ou & Eu & n' & N1 & N2 & N3 & N4).
  pose proof (Ok_inj _ _ (eq_trans (eq_sym N1) Ex) : n' = n) as Q. subst n'. split; [exact N2|]. split; [exact N3|]. exists u. split; [exact Ou|]. split; [|exact N4].
  pose proof (eq_trans (eq_sym Hq) Eu) as Q. injection Q as ->. apply close_dist, Hc, Ou.
Qed.
