(** * Property theorems: facet normals of tessellated cylinders and cones in floating point (C94) *)

From Coq Require Import List Arith Bool Lia Permutation ZArith Reals Lra.
From Flocq Require Import Core BinarySingleNaN.
From Verif Require Import Scalar Linal Result SpecReal VecR VecLemmas ModelKdTree SpecKdTree SpecTransform SpecIEEE SpecFloatErr SpecFloatTess SpecFloatOut SpecFloatNear
  ModelShapes ModelTransform ModelMesh SpecMesh ModelTess SpecTess ProofTransform ProofTessComb ProofTessConn ProofTessMesh ProofTessSphere ProofTessRound ProofTess ProofVolume ProofConvex
  ProofRound ProofIEEE ProofFloatErr ProofFloatDist ProofFloatTrig ProofTessSafe ProofMeshIEEE ProofFloatTess ProofFloatRound ProofFloatOut ProofVertexNear ProofVertexRound ProofFloatSide
  PropMeshIEEE PropFloatTess PropFloatRound PropFloatOut.
Import ListNotations.
Local Open Scope R_scope.

Lemma affine_start (A : vec (vec R 3) 3) (s : vec R 3) : affine A s (0, (0, (0, tt))) = s.
Proof. rewrite affine_z. apply eq_by_dot. vring. Qed.
Lemma affine_end (A : vec (vec R 3) 3) (s t : vec R 3) : 0 < rdist t s -> rotation_onto A (rdirection (rsub t s)) -> affine A s (0, (0, (rdist t s, tt))) = t.
Proof.
  intros Hl (_ & _ & E). rewrite affine_z, E. unfold rdirection. change (rnorm (rsub t s)) with (rdist t s). rewrite rscale_scale, Rinv_r by lra.
  clear. destruct s as (? & ? & ? & []), t as (? & ? & ? & []). cbn. repeat (apply f_equal2; [field|]). reflexivity.
Qed.

(** ** C94: the cylinder.  The normal computed for a facet differs by at most [eta] from
    the normal of a facet of the exact tessellation (as in C92) at a point within [2 * c] of
    the computed corner: down the axis at the lower cap, up the axis at the upper cap, and
    at right angles to the axis at the wall, half a step from either side of the facet. *)
Theorem C94_cylinder :
  forall p e Hp He, (2 < p)%Z -> forall f g h pi,
  let S := IEEE p e Hp He f g h pi in
  forall (L : Linal S) W meq dbg self SZ (rot_align : hvec S -> hvec S -> hmat S) (k K : Z) (na : nat) (cy : cylinder S) (A : vec (vec R 3) 3) (d t M : R),
    (3 <= na)%nat -> (12 * na < W)%nat ->
    trig_accurate d f g pi -> equal_within L t -> identity_within meq t -> (3 - e - p <= 2 * k)%Z ->
    let seg := cy_segment cy in
    let src := g_source seg : vec (binary_float p e) 3 in let tgt := g_target seg : vec (binary_float p e) 3 in
    let r := B2R (cy_radius cy : binary_float p e) in let l := rdist (vreal tgt) (vreal src) in
    in_reach tgt src -> (forall i, (i < 3)%nat -> Rabs (fval i src) <= M) -> M <= bpow radix2 (e - 4) ->
    is_finite (cy_radius cy : binary_float p e) = true -> 0 < r -> r + l <= bpow radix2 (e - 4) ->
    rotation_onto A (rdirection (rsub (vreal tgt) (vreal src))) ->
    rotation_within d A (rot_align (mk4 s0 s0 s1 s1) (to_hvec (segment_direction seg))) ->
    let c := 150 * (d * (r + l)) + 10 * bpow radix2 k + 4 * (uround p * M) + t * (1 + 3 * (r + l)) in
    INR na * (2 * c + t + bpow radix2 k) <= r -> 2 * (2 * c + t + bpow radix2 k) <= l ->
    16 * ((r + l) * (r + l)) * c * INR na <= r * r * l -> scale_frame p e K (r + l) (r * r * l / INR na) ->
    let dir := rdirection (rsub (vreal tgt) (vreal src)) in let ch := cos (PI / INR na) in
    let eta := 42 * INR na * ((r + l) * (r + l)) * c / (r * r * l) in
    let exact q n := n = rscale (-1) dir /\ (q = vreal src \/ rim na A (vreal src) r q) \/ n = dir /\ (q = vreal tgt \/ rim na A (vreal tgt) r q) \/
      rnorm n = 1 /\ rdot n dir = 0 /\ (rim na A (vreal src) r q /\ rdot n (rdirection (rsub q (vreal src))) = ch \/ rim na A (vreal tgt) r q /\ rdot n (rdirection (rsub q (vreal tgt))) = ch) in
    exists m, mb_cylinder L W meq dbg self SZ rot_align na cy = Ok (Some m) /\ length (m_facets m) = (4 * na)%nat /\
      float_facet_normals self m (fun q n => exists q' n', exact q' n' /\ rdist q q' <= 2 * c /\ rdist n n' <= eta).
Proof.
  intros p e Hp He H2 f g h pi S L W meq dbg self SZ rot_align k K na cy A d t M Hna HW Ht HL Hm Hk seg src tgt r l HR HsM HM Fr Hr Hre HA HX c Hs1 Hs2 Hout Hfr dir ch eta exact.
  destruct (cylinder_setup p e Hp He H2 f g h pi L W meq rot_align k na cy A d t M Hna HW Ht HL Hm Hk HR HsM HM Fr Hr Hre HA HX Hs1 Hs2) as (fp & Ep & Hn & Hs & Hv & Hc & _ & Hl).
  destruct (cylinder_built p e Hp He H2 f g h pi L W meq dbg self SZ rot_align k na cy Hna HW Hn Hs Hv) as (m & Em & (_ & _ & _ & _ & _ & V6) & pos & Hpos & Hw).
  exists m. split; [exact Em|]. split; [exact V6|].
  assert (M0 : 0 <= M) by (eapply Rle_trans; [apply Rabs_pos|apply (HsM 0%nat); lia]).
  pose proof (@u_pos p) as U. pose proof (ew_slack _ _ HL) as t0. pose proof (ta_round _ _ _ _ Ht) as Hud. pose proof (bpow_gt_0 radix2 k) as b0.
  destruct (round_margin p na d t k M r l Hna Hr Hl t0 M0 Hud Hout) as (D0 & D16 & D500 & U1).
  assert (Hps : forall v, In v (yvs na) -> pos v = fp v) by (apply map_eq_in; exact (eq_trans Hpos Ep)).
  assert (Hl' : 0 < l) by exact Hl. assert (N3 : 3 <= INR na) by (apply (le_INR 3) in Hna; cbn in Hna; lra).
  assert (Hcu : 150 * (uround p * (r + l)) <= c).
  { unfold c. assert (uround p * (r + l) <= d * (r + l)) by (apply Rmult_le_compat_r; lra). assert (0 <= uround p * M) by (apply Rmult_le_pos; lra). assert (0 <= t * (1 + 3 * (r + l))) by (apply Rmult_le_pos; lra). lra. }
  set (lin := affine A rzero). set (nor := fun t => lin (ynor na t)). set (rp := fun v => affine A (vreal src) (ypos na r l v)).
  (* the points *)
  assert (PB : rp YB = vreal src) by apply affine_start. assert (PT : rp YT = vreal tgt) by apply (affine_end A _ _ Hl HA).
  assert (DB : forall j, rdirection (rsub (rp (YRB j)) (vreal src)) = lin (spoke na j)) by (intros j; apply (rim_direction A dir HA na r (vreal src) j Hr)).
  assert (ET : forall j, rp (YRT j) = affine A (vreal tgt) (cylindrical r (azi na j) 0)) by (intros j; unfold rp; cbn [ypos]; rewrite affine_cyl; f_equal; exact PT).
  assert (DT : forall j, rdirection (rsub (rp (YRT j)) (vreal tgt)) = lin (spoke na j)) by (intros j; rewrite ET; apply (rim_direction A dir HA na r (vreal tgt) j Hr)).
  assert (RB : forall j, (j < na)%nat -> rim na A (vreal src) r (rp (YRB j))) by (intros j Hj; exists j; split; [exact Hj|reflexivity]).
  assert (RT : forall j, (j < na)%nat -> rim na A (vreal tgt) r (rp (YRT j))) by (intros j Hj; exists j; split; [exact Hj|exact (ET j)]).
  assert (LD : lin (down) = rscale (-1) dir) by apply (lin_down A dir HA). assert (LZ : lin e_z = dir) by apply (lin_ez A dir HA).
  pose proof (lin_rigid_dot A dir HA) as LR. fold lin in LR.
  intros kk fa Hf.
  destruct (mesh_sides f g h pi L self _ Hv (map (ytri na) (ytags na)) pos m (fun v => In v (yvs na)) rp (affine A (vreal src) (0, (0, (l / 2, tt)))) (r + l) c (r * r * l / INR na) K nor) with (k := kk) (f := fa)
    as (tt0 & n & Htt & En & Fn & Un & Dn & Hq).
  - exact Hw.
  - intros x y z Hin. destruct (corners_in _ _ (cyl_corner na Hna) x y z Hin) as (A1 & A2 & A3). repeat split; apply yvs_all; assumption.
  - intros v Hin. exact (eq_ind _ (fun l => In (pos v) l) (in_map pos (yvs na) v Hin) _ Hpos).
  - intros v Hin. rewrite (Hps v Hin). exact (Hc v Hin).
  - intros v Hin. unfold rp. rewrite (rigid_shift A (vreal src) (proj1 HA)). apply ypos_dist; assumption.
  - intros x y z Hin. unfold rp. rewrite sixvol_affine, (rigid_det A (proj1 HA) (proj1 (proj2 HA))), Rmult_1_l. apply ytri_sixvol; assumption.
  - exact D0.
  - lra.
  - exact D16.
  - exact D500.
  - exact U1.
  - exact Hfr.
  - exact Hcu.
  - intros x y z Hin. destruct (ynor_normal na Hna r l Hr Hl x y z Hin) as (N1 & kx & Hkx & EC). split; [unfold nor, lin; rewrite (lin_norm A (proj1 HA)); exact N1|].
    exists kx. split; [exact Hkx|]. apply (lin_normal A (proj1 HA) (proj1 (proj2 HA))). exact EC.
  - exact Hf.
  - exists n. split; [exact En|]. split; [exact Fn|]. split; [exact Un|]. intros i he q Hh Hkk Hqq. destruct (Hq i he q Hh Hkk Hqq) as (u & Hu & Du).
    exists (rp u), (nor tt0). split; [|split; [exact Du|]].
    2: { eapply Rle_trans; [exact Dn|]. apply Req_le. unfold eta. field. lra. }
    apply in_map_iff in Htt as (tg & <- & Hg). apply ytags_ok in Hg.
    destruct tg as [j|j|j|j]; cbn in Hg; unfold exact, nor; cbn [ytri ynor]; cbn [ytri at_corner] in Hu; pose proof (nxt_lt na Hna j Hg) as Hnx; pose proof (prv_lt na Hna j Hg) as Hpv.
    + left. split; [exact LD|]. destruct Hu as [-> | [-> | ->]]; [left; exact PB|right; apply RB; assumption|right; apply RB; assumption].
    + right; left. split; [exact LZ|]. destruct Hu as [-> | [-> | ->]]; [left; exact PT|right; apply RT; assumption|right; apply RT; assumption].
    + right; right. destruct (wall_spoke na Hna j Hg) as (K1 & K2). split; [unfold lin; rewrite (lin_norm A (proj1 HA)); apply wall_unit|]. split; [rewrite <- LZ, LR; unfold wall, e_z; cbn; ring|].
      destruct Hu as [-> | [-> | ->]]; [left; split; [apply RB; assumption|rewrite DB, LR; exact K1]|right; split; [apply RT; assumption|rewrite DT, LR; exact K1]|left; split; [apply RB; assumption|rewrite DB, LR; exact K2]].
    + right; right. destruct (wall_spoke na Hna j Hg) as (K1 & K2). split; [unfold lin; rewrite (lin_norm A (proj1 HA)); apply wall_unit|]. split; [rewrite <- LZ, LR; unfold wall, e_z; cbn; ring|].
      destruct Hu as [-> | [-> | ->]]; [right; split; [apply RT; assumption|rewrite DT, LR; exact K1]|right; split; [apply RT; assumption|rewrite DT, LR; exact K2]|left; split; [apply RB; assumption|rewrite DB, LR; exact K2]].
Qed.
Print Assumptions C94_cylinder.

(** The cone: down the axis at the base; the sides lean along the axis by a fixed amount. *)
Theorem C94_cone :
  forall p e Hp He, (2 < p)%Z -> forall f g h pi,
  let S := IEEE p e Hp He f g h pi in
  forall (L : Linal S) W meq dbg self SZ (rot_align : hvec S -> hvec S -> hmat S) (k K : Z) (na : nat) (co : cone S) (A : vec (vec R 3) 3) (d t M : R),
    (3 <= na)%nat -> (6 * na < W)%nat ->
    trig_accurate d f g pi -> equal_within L t -> identity_within meq t -> (3 - e - p <= 2 * k)%Z ->
    let seg := co_segment co in
    let src := g_source seg : vec (binary_float p e) 3 in let tgt := g_target seg : vec (binary_float p e) 3 in
    let r := B2R (co_radius co : binary_float p e) in let l := rdist (vreal tgt) (vreal src) in
    in_reach tgt src -> (forall i, (i < 3)%nat -> Rabs (fval i src) <= M) -> M <= bpow radix2 (e - 4) ->
    is_finite (co_radius co : binary_float p e) = true -> 0 < r -> r + l <= bpow radix2 (e - 4) ->
    rotation_onto A (rdirection (rsub (vreal tgt) (vreal src))) ->
    rotation_within d A (rot_align (mk4 s0 s0 s1 s1) (to_hvec (segment_direction seg))) ->
    (dbg = true -> isZero L (leps L) (segment_length seg) = false /\ isEq L (leps L) (vlength (segment_direction seg)) s1 = true) ->
    let c := 150 * (d * (r + l)) + 10 * bpow radix2 k + 4 * (uround p * M) + t * (1 + 3 * (r + l)) in
    INR na * (2 * c + t + bpow radix2 k) <= r -> 2 * (2 * c + t + bpow radix2 k) <= l ->
    16 * ((r + l) * (r + l)) * c * INR na <= r * r * l -> scale_frame p e K (r + l) (r * r * l / INR na) ->
    let dir := rdirection (rsub (vreal tgt) (vreal src)) in let ch := cos (PI / INR na) in let sl := sqrt (l * l + r * ch * (r * ch)) in
    let eta := 42 * INR na * ((r + l) * (r + l)) * c / (r * r * l) in
    let exact q n := n = rscale (-1) dir /\ (q = vreal src \/ rim na A (vreal src) r q) \/
      rnorm n = 1 /\ rdot n dir = r * ch / sl /\ (q = vreal tgt \/ rim na A (vreal src) r q /\ rdot n (rdirection (rsub q (vreal src))) = l / sl * ch) in
    exists m, mb_cone L W meq dbg self SZ rot_align na co = Ok (Some m) /\ length (m_facets m) = (2 * na)%nat /\
      float_facet_normals self m (fun q n => exists q' n', exact q' n' /\ rdist q q' <= 2 * c /\ rdist n n' <= eta).
Proof.
  intros p e Hp He H2 f g h pi S L W meq dbg self SZ rot_align k K na co A d t M Hna HW Ht HL Hm Hk seg src tgt r l HR HsM HM Fr Hr Hre HA HX Hdbg c Hs1 Hs2 Hout Hfr dir ch sl eta exact.
  destruct (cone_setup p e Hp He H2 f g h pi L W meq rot_align k na co A d t M Hna HW Ht HL Hm Hk HR HsM HM Fr Hr Hre HA HX Hs1 Hs2) as (fp & Ep & Hn & Hs & Hv & Hc & _ & Hl).
  destruct (cone_built p e Hp He H2 f g h pi L W meq dbg self SZ rot_align k na co Hna HW Hdbg Hn Hs Hv) as (m & Em & (_ & _ & _ & _ & _ & V6) & pos & Hpos & Hw).
  exists m. split; [exact Em|]. split; [exact V6|].
  assert (M0 : 0 <= M) by (eapply Rle_trans; [apply Rabs_pos|apply (HsM 0%nat); lia]).
  pose proof (@u_pos p) as U. pose proof (ew_slack _ _ HL) as t0. pose proof (ta_round _ _ _ _ Ht) as Hud. pose proof (bpow_gt_0 radix2 k) as b0.
  destruct (round_margin p na d t k M r l Hna Hr Hl t0 M0 Hud Hout) as (D0 & D16 & D500 & U1).
  assert (Hps : forall v, In v (kvs na) -> pos v = fp v) by (apply map_eq_in; exact (eq_trans Hpos Ep)).
  assert (Hl' : 0 < l) by exact Hl. assert (N3 : 3 <= INR na) by (apply (le_INR 3) in Hna; cbn in Hna; lra).
  assert (Hcu : 150 * (uround p * (r + l)) <= c).
  { unfold c. assert (uround p * (r + l) <= d * (r + l)) by (apply Rmult_le_compat_r; lra). assert (0 <= uround p * M) by (apply Rmult_le_pos; lra). assert (0 <= t * (1 + 3 * (r + l))) by (apply Rmult_le_pos; lra). lra. }
  set (lin := affine A rzero). set (nor := fun t => lin (knor na r l t)). set (rp := fun v => affine A (vreal src) (kpos na r l v)).
  (* the points *)
  assert (PB : rp KC = vreal src) by apply affine_start. assert (PT : rp KP = vreal tgt) by apply (affine_end A _ _ Hl HA).
  assert (DB : forall j, rdirection (rsub (rp (KR j)) (vreal src)) = lin (spoke na j)) by (intros j; apply (rim_direction A dir HA na r (vreal src) j Hr)).
  assert (RB : forall j, (j < na)%nat -> rim na A (vreal src) r (rp (KR j))) by (intros j Hj; exists j; split; [exact Hj|reflexivity]).
  assert (LD : lin (down) = rscale (-1) dir) by apply (lin_down A dir HA). assert (LZ : lin e_z = dir) by apply (lin_ez A dir HA).
  pose proof (lin_rigid_dot A dir HA) as LR. fold lin in LR.
  intros kk fa Hf.
  destruct (mesh_sides f g h pi L self _ Hv (map (ktri na) (ktags na)) pos m (fun v => In v (kvs na)) rp (affine A (vreal src) (0, (0, (l / 2, tt)))) (r + l) c (r * r * l / INR na) K nor) with (k := kk) (f := fa)
    as (tt0 & n & Htt & En & Fn & Un & Dn & Hq).
  - exact Hw.
  - intros x y z Hin. destruct (corners_in _ _ (cone_corner na Hna) x y z Hin) as (A1 & A2 & A3). repeat split; apply kvs_all; assumption.
  - intros v Hin. exact (eq_ind _ (fun l => In (pos v) l) (in_map pos (kvs na) v Hin) _ Hpos).
  - intros v Hin. rewrite (Hps v Hin). exact (Hc v Hin).
  - intros v Hin. unfold rp. rewrite (rigid_shift A (vreal src) (proj1 HA)). apply kpos_dist; assumption.
  - intros x y z Hin. unfold rp. rewrite sixvol_affine, (rigid_det A (proj1 HA) (proj1 (proj2 HA))), Rmult_1_l. apply ktri_sixvol; assumption.
  - exact D0.
  - lra.
  - exact D16.
  - exact D500.
  - exact U1.
  - exact Hfr.
  - exact Hcu.
  - intros x y z Hin. destruct (knor_normal na Hna r l Hr x y z Hin) as (N1 & kx & Hkx & EC). split; [unfold nor, lin; rewrite (lin_norm A (proj1 HA)); exact N1|].
    exists kx. split; [exact Hkx|]. apply (lin_normal A (proj1 HA) (proj1 (proj2 HA))). exact EC.
  - exact Hf.
  - exists n. split; [exact En|]. split; [exact Fn|]. split; [exact Un|]. intros i he q Hh Hkk Hqq. destruct (Hq i he q Hh Hkk Hqq) as (u & Hu & Du).
    exists (rp u), (nor tt0). split; [|split; [exact Du|]].
    2: { eapply Rle_trans; [exact Dn|]. apply Req_le. unfold eta. field. lra. }
    apply in_map_iff in Htt as (tg & <- & Hg). apply ktags_ok in Hg.
    destruct tg as [j|j]; cbn in Hg; unfold exact, nor; cbn [ktri knor]; cbn [ktri at_corner] in Hu; pose proof (nxt_lt na Hna j Hg) as Hnx.
    + left. split; [exact LD|]. destruct Hu as [-> | [-> | ->]]; [left; exact PB|right; apply RB; assumption|right; apply RB; assumption].
    + right. destruct (side_spoke na Hna r l j Hg) as (K1 & K2). split; [unfold lin; rewrite (lin_norm A (proj1 HA)); apply (side_unit na Hna r l Hr)|]. split; [rewrite <- LZ, LR; apply side_axis|].
      destruct Hu as [-> | [-> | ->]]; [left; exact PT|right; split; [apply RB; assumption|rewrite DB, LR; exact K2]|right; split; [apply RB; assumption|rewrite DB, LR; exact K1]].
Qed.
Print Assumptions C94_cone.

(** ** Vertex normals *)
Lemma map_inj_in {A B} (f : A -> B) l : NoDup (map f l) -> forall x y, In x l -> In y l -> f x = f y -> x = y.
Proof.
  induction l as [|z l IH]; cbn; intros H x y Hx Hy E; [contradiction|]. inversion H as [|? ? H1 H2]; subst. destruct Hx as [<-|Hx], Hy as [<-|Hy].
  - reflexivity.
  - exfalso. apply H1. rewrite E. apply in_map, Hy.
  - exfalso. apply H1. rewrite <- E. apply in_map, Hx.
  - apply IH; assumption.
Qed.
Lemma lean_unit a j x y : 0 < x -> let b := sqrt (x * x + y * y) in
  0 < b /\ b <= x + Rabs y /\ rnorm (rscale (/ b) (radd (rscale x (spoke a j)) (rscale y e_z))) = 1.
Proof.
  intros Hx b. assert (X : 0 < x * x) by (apply Rmult_lt_0_compat; assumption). assert (Y : 0 <= y * y) by apply Rle_0_sqr.
  assert (b0 : 0 < b) by (apply sqrt_lt_R0; lra). split; [exact b0|]. pose proof (Rabs_pos y) as Ay. split.
  - assert (Q : b * b = x * x + y * y) by (apply sqrt_sqrt; lra). assert (Q2 : Rabs y * Rabs y = y * y) by (rewrite <- Rabs_mult; apply Rabs_right; lra).
    apply Rsqr_incr_0_var; [|lra]. unfold Rsqr. rewrite Q. assert (0 <= x * Rabs y) by (apply Rmult_le_pos; lra). lra.
  - rewrite rnorm_scale. assert (E : rnorm (radd (rscale x (spoke a j)) (rscale y e_z)) = b).
    { unfold rnorm, b. f_equal. unfold spoke, e_z. cbn. pose proof (sin2_cos2 (azi a j)) as K. unfold Rsqr in K.
      transitivity (x * x * (sin (azi a j) * sin (azi a j) + cos (azi a j) * cos (azi a j)) + y * y); [ring|rewrite K; ring]. }
    rewrite E, Rabs_right by (apply Rle_ge, Rlt_le, Rinv_0_lt_compat, b0). field. lra.
Qed.
Lemma half_le a : (3 <= a)%nat -> 1 / 2 <= cos (PI / INR a) <= 1.
Proof.
  intros Ha. pose proof (le_INR 3 a Ha) as A3. cbn [INR] in A3. pose proof PI_RGT_0 as pi0. split; [|apply COS_bound]. rewrite <- cos_PI3.
  assert (Y : PI / INR a <= PI / 3) by (unfold Rdiv; apply Rmult_le_compat_l; [lra|]; apply Rinv_le; lra).
  assert (0 < PI / INR a) by (apply Rdiv_lt_0_compat; lra). apply cos_decr_1; lra.
Qed.
(** the errors, all in terms of one *)
Lemma eps_margin (na : nat) u r l c : (3 <= na)%nat -> 0 < u -> 0 < r -> 0 < l -> 150 * (u * (r + l)) <= c ->
  let eps := 44 * INR na * ((r + l) * (r + l)) * c / (r * r * l) in eps <= 1 / 4 -> let D := r * r * l / INR na in
  16 * ((r + l) * (r + l)) * c * INR na <= r * r * l /\ 6600 * (INR na * u) <= eps /\ 43 * ((r + l) * (r + l)) * c / D = 43 / 44 * eps.
Proof.
  intros Hna Hu Hr Hl Hc eps He D. assert (N3 : 3 <= INR na) by (apply (le_INR 3) in Hna; cbn in Hna; lra).
  set (R0 := r + l) in *. assert (rho0 : 0 < R0) by (unfold R0; lra). assert (V : 0 < r * r * l) by (apply Rmult_lt_0_compat; [apply Rmult_lt_0_compat; assumption|assumption]).
  assert (VR : r * r * l <= R0 * R0 * R0). { apply Rmult_le_compat; try (unfold R0; lra); [apply Rle_0_sqr|]. apply Rmult_le_compat; unfold R0; lra. }
  assert (EE : eps * (r * r * l) = 44 * INR na * (R0 * R0) * c) by (unfold eps; field; split; lra).
  assert (RR : 0 < R0 * R0) by (apply Rmult_lt_0_compat; assumption). assert (nR : 0 < INR na * (R0 * R0)) by (apply Rmult_lt_0_compat; lra).
  assert (uR : 0 < u * R0) by (apply Rmult_lt_0_compat; assumption). assert (c0 : 0 < c) by lra. assert (nRc : 0 < INR na * (R0 * R0) * c) by (apply Rmult_lt_0_compat; assumption).
  split; [|split].
  - assert (eps * (r * r * l) <= 1 / 4 * (r * r * l)) by (apply Rmult_le_compat_r; lra). lra.
  - apply Rmult_le_reg_r with (r * r * l); [exact V|]. rewrite EE. assert (nu0 : 0 < INR na * u) by (apply Rmult_lt_0_compat; lra).
    apply Rle_trans with (6600 * (INR na * u) * (R0 * R0 * R0)); [apply Rmult_le_compat_l; lra|].
    replace (6600 * (INR na * u) * (R0 * R0 * R0)) with (44 * (INR na * (R0 * R0)) * (150 * (u * R0))) by ring. replace (44 * INR na * (R0 * R0) * c) with (44 * (INR na * (R0 * R0)) * c) by ring.
    apply Rmult_le_compat_l; lra.
  - unfold D, eps. field. repeat split; lra.
Qed.

(** ** C94: vertex normals, with the sides of C92 for an arbitrary comparison of normals:
    those of the caps' centres are along the axis, those at the rims lean outwards and
    along the axis. *)
Theorem C94_cylinder_vertices :
  forall p e Hp He, (2 < p)%Z -> forall f g h pi,
  let S := IEEE p e Hp He f g h pi in
  forall (L : Linal S) W meq dbg self SZ (rot_align : hvec S -> hvec S -> hmat S) (k K : Z) (na : nat) (cy : cylinder S) (A : vec (vec R 3) 3) (d t M : R),
    (3 <= na)%nat -> (12 * na < W)%nat ->
    trig_accurate d f g pi -> equal_within L t -> identity_within meq t -> (3 - e - p <= 2 * k)%Z ->
    let seg := cy_segment cy in
    let src := g_source seg : vec (binary_float p e) 3 in let tgt := g_target seg : vec (binary_float p e) 3 in
    let r := B2R (cy_radius cy : binary_float p e) in let l := rdist (vreal tgt) (vreal src) in
    in_reach tgt src -> (forall i, (i < 3)%nat -> Rabs (fval i src) <= M) -> M <= bpow radix2 (e - 4) ->
    is_finite (cy_radius cy : binary_float p e) = true -> 0 < r -> r + l <= bpow radix2 (e - 4) ->
    rotation_onto A (rdirection (rsub (vreal tgt) (vreal src))) ->
    rotation_within d A (rot_align (mk4 s0 s0 s1 s1) (to_hvec (segment_direction seg))) ->
    let c := 150 * (d * (r + l)) + 10 * bpow radix2 k + 4 * (uround p * M) + t * (1 + 3 * (r + l)) in
    INR na * (2 * c + t + bpow radix2 k) <= r -> 2 * (2 * c + t + bpow radix2 k) <= l ->
    let eps := 44 * INR na * ((r + l) * (r + l)) * c / (r * r * l) in eps <= 1 / 4 -> scale_frame p e K (r + l) (r * r * l / INR na) ->
    let dir := rdirection (rsub (vreal tgt) (vreal src)) in let ch := cos (PI / INR na) in
    let near q n := q = vreal src /\ 1 - eps <= rdot n (rscale (-1) dir) \/ q = vreal tgt /\ 1 - eps <= rdot n dir \/
      rim na A (vreal src) r q /\ ch - 2 * eps <= rdot n (radd (rdirection (rsub q (vreal src))) (rscale (-1) dir)) \/
      rim na A (vreal tgt) r q /\ ch - 2 * eps <= rdot n (radd (rdirection (rsub q (vreal tgt))) dir) in
    exists m, mb_cylinder L W meq dbg self SZ rot_align na cy = Ok (Some m) /\ length (m_facets m) = (4 * na)%nat /\
      float_vertex_normals L self m (fun q n => exists q', rdist q q' <= 2 * c /\ near q' n).
Proof.
  intros p e Hp He H2 f g h pi S L W meq dbg self SZ rot_align k K na cy A d t M Hna HW Ht HL Hm Hk seg src tgt r l HR HsM HM Fr Hr Hre HA HX c Hs1 Hs2 eps He4 Hfr dir ch near.
  destruct (cylinder_setup p e Hp He H2 f g h pi L W meq rot_align k na cy A d t M Hna HW Ht HL Hm Hk HR HsM HM Fr Hr Hre HA HX Hs1 Hs2) as (fp & Ep & Hn & Hs & Hv & Hc & _ & Hl).
  destruct (cylinder_built p e Hp He H2 f g h pi L W meq dbg self SZ rot_align k na cy Hna HW Hn Hs Hv) as (m & Em & (_ & _ & _ & _ & _ & V6) & pos & Hpos & Hw).
  exists m. split; [exact Em|]. split; [exact V6|].
  assert (M0 : 0 <= M) by (eapply Rle_trans; [apply Rabs_pos|apply (HsM 0%nat); lia]).
  pose proof (@u_pos p) as U. pose proof (ew_slack _ _ HL) as t0. pose proof (ta_round _ _ _ _ Ht) as Hud. pose proof (bpow_gt_0 radix2 k) as b0.
  assert (Hl' : 0 < l) by exact Hl. assert (N3 : 3 <= INR na) by (apply (le_INR 3) in Hna; cbn in Hna; lra).
  assert (Hcu : 150 * (uround p * (r + l)) <= c).
  { unfold c. assert (uround p * (r + l) <= d * (r + l)) by (apply Rmult_le_compat_r; lra). assert (0 <= uround p * M) by (apply Rmult_le_pos; lra). assert (0 <= t * (1 + 3 * (r + l))) by (apply Rmult_le_pos; lra). lra. }

  destruct (eps_margin na (uround p) r l c Hna U Hr Hl' Hcu He4) as (Hout & Hnu & E43). fold eps in Hnu, E43.
  destruct (round_margin p na d t k M r l Hna Hr Hl t0 M0 Hud Hout) as (D0 & D16 & D500 & U1).
  assert (nu0 : 0 < INR na * uround p) by (apply Rmult_lt_0_compat; lra). assert (nu3 : 3 * uround p <= INR na * uround p) by (apply Rmult_le_compat_r; lra).
  assert (Hps : forall v, In v (yvs na) -> pos v = fp v) by (apply map_eq_in; exact (eq_trans Hpos Ep)).
  set (lin := affine A rzero). set (nor := fun t => lin (ynor na t)). set (rp := fun v => affine A (vreal src) (ypos na r l v)).
  (* the points *)
  assert (PB : rp YB = vreal src) by apply affine_start. assert (PT : rp YT = vreal tgt) by apply (affine_end A _ _ Hl HA).
  assert (DB : forall j, rdirection (rsub (rp (YRB j)) (vreal src)) = lin (spoke na j)) by (intros j; apply (rim_direction A dir HA na r (vreal src) j Hr)).
  assert (ET : forall j, rp (YRT j) = affine A (vreal tgt) (cylindrical r (azi na j) 0)) by (intros j; unfold rp; cbn [ypos]; rewrite affine_cyl; f_equal; exact PT).
  assert (DT : forall j, rdirection (rsub (rp (YRT j)) (vreal tgt)) = lin (spoke na j)) by (intros j; rewrite ET; apply (rim_direction A dir HA na r (vreal tgt) j Hr)).
  assert (RB : forall j, (j < na)%nat -> rim na A (vreal src) r (rp (YRB j))) by (intros j Hj; exists j; split; [exact Hj|reflexivity]).
  assert (RT : forall j, (j < na)%nat -> rim na A (vreal tgt) r (rp (YRT j))) by (intros j Hj; exists j; split; [exact Hj|exact (ET j)]).
  assert (LD : lin (down) = rscale (-1) dir) by apply (lin_down A dir HA). assert (LZ : lin e_z = dir) by apply (lin_ez A dir HA).
  pose proof (lin_rigid_dot A dir HA) as LR. fold lin in LR. pose proof (half_le na Hna) as Hch. fold ch in Hch.
  assert (Add : forall u v, lin (radd u v) = radd (lin u) (lin v)) by (intros u v; apply (lin_add A)). assert (Sc : forall k u, lin (rscale k u) = rscale k (lin u)) by (intros k0 u; apply (lin_scale A)).
  set (b := sqrt (1 * 1 + 1 * 1)). assert (Eb : sqrt (1 * 1 + -1 * -1) = b) by (unfold b; f_equal; ring).
  assert (Lean : forall j, rnorm (rscale (/ b) (radd (rscale 1 (spoke na j)) (rscale 1 e_z))) = 1) by (intros j; exact (proj2 (proj2 (lean_unit na j 1 1 ltac:(lra))))).
  assert (Lean' : forall j, rnorm (rscale (/ b) (radd (rscale 1 (spoke na j)) (rscale (-1) e_z))) = 1) by (intros j; pose proof (proj2 (proj2 (lean_unit na j 1 (-1) ltac:(lra)))) as Q; cbv zeta in Q; rewrite Eb in Q; exact Q).
  assert (Hb : 0 < b <= 3 / 2).
  { split; [apply (lean_unit na 0 1 1); lra|]. replace (3 / 2) with (sqrt (3 / 2 * (3 / 2))) by (apply sqrt_square; lra). apply sqrt_le_1_alt. lra. }
  assert (Hcb : 1 / 3 <= ch / b).
  { apply Rmult_le_reg_r with b; [lra|]. replace (ch / b * b) with ch by (field; lra). lra. }
  set (nu := fun v : yvert => match v with YB | YT => 1 | YRB _ | YRT _ => ch / b end).
  set (Wd := fun v : yvert => lin match v with YB => down | YT => e_z | YRB j => rscale (/ b) (radd (rscale 1 (spoke na j)) (rscale (-1) e_z)) | YRT j => rscale (/ b) (radd (rscale 1 (spoke na j)) (rscale 1 e_z)) end).
  set (cnt := INR (3 * length (map (ytri na) (ytags na)))).
  assert (Ec : cnt = 12 * INR na) by (unfold cnt; rewrite map_length, ytags_length, !mult_INR; cbn [INR]; ring).
  set (eps0 := 43 * ((r + l) * (r + l)) * c / (r * r * l / INR na) + (12 / 5 * cnt + 12) * uround p).
  assert (He0 : 0 <= eps0 /\ eps0 + 13 * uround p <= eps) by (unfold eps0; rewrite E43, Ec; lra).
  destruct (mesh_tops f g h pi L self _ Hv (map (ytri na) (ytags na)) pos m (yv_ok na) rp (affine A (vreal src) (0, (0, (l / 2, tt)))) (r + l) c (r * r * l / INR na) K nor Wd nu)
    as (ns & En & Ln & HN).
  - exact Hw.
  - intros x y z Hin. exact (corners_in _ _ (cyl_corner na Hna) x y z Hin).
  - intros v Hin. apply yvs_all in Hin. exact (eq_ind _ (fun l => In (pos v) l) (in_map pos (yvs na) v Hin) _ Hpos).
  - intros v Hin. apply yvs_all in Hin. rewrite (Hps v Hin). exact (Hc v Hin).
  - intros v Hin. apply yvs_all in Hin. unfold rp. rewrite (rigid_shift A (vreal src) (proj1 HA)). apply ypos_dist; assumption.
  - intros x y z Hin. unfold rp. rewrite sixvol_affine, (rigid_det A (proj1 HA) (proj1 (proj2 HA))), Rmult_1_l. apply ytri_sixvol; assumption.
  - exact D0.
  - lra.
  - exact D16.
  - exact D500.
  - exact U1.
  - exact Hfr.
  - exact Hcu.
  - intros x y z Hin. destruct (ynor_normal na Hna r l Hr Hl x y z Hin) as (N1 & kx & Hkx & EC). split; [unfold nor, lin; rewrite (lin_norm A (proj1 HA)); exact N1|].
    exists kx. split; [exact Hkx|]. apply (lin_normal A (proj1 HA) (proj1 (proj2 HA))). exact EC.
  - intros u v Hu Hvv. apply (map_inj_in pos (yvs na)); [exact (eq_ind_r _ Hn Hpos)|apply yvs_all, Hu|apply yvs_all, Hvv].
  - intros v _. unfold Wd, lin. rewrite (lin_norm A (proj1 HA)). destruct v as [| |j|j]; [apply down_unit|apply ez_unit|apply Lean'|apply Lean].
  - intros x y z v Hin Hco. unfold nor, Wd. rewrite LR.
    assert (Ov : yv_ok na v) by (destruct (corners_in _ _ (cyl_corner na Hna) x y z Hin) as (A1 & A2 & A3); destruct Hco as [-> | [-> | ->]]; assumption).
    assert (Meet : In (ynor na (x, y, z)) (ymeet na v)) by (apply (ymeet_spec na Hna v Ov); exists (x, y, z); auto).
    assert (Up : forall X, ch <= X -> ch / b <= / b * X) by (intros X HX'; unfold Rdiv; rewrite Rmult_comm; apply Rmult_le_compat_l; [left; apply Rinv_0_lt_compat; lra|exact HX']).
    destruct v as [| |j|j]; cbn [yv_ok] in Ov; cbn [nu].
    + destruct Meet as [<-|[]]. unfold down. cbn. lra.
    + destruct Meet as [<-|[]]. unfold e_z. cbn. lra.
    + rewrite rdot_scale_r. apply Up. rewrite rdot_add_r, !rdot_scale_r. destruct Meet as [<-|[<-|[<-|[]]]].
      * unfold down, spoke, e_z. cbn. lra.
      * destruct (wall_spoke na Hna (prv na j) (prv_lt na Hna j Ov)) as (_ & Q). rewrite (nxt_prv na Hna j Ov) in Q. rewrite Q. unfold wall, e_z. cbn. fold ch. lra.
      * destruct (wall_spoke na Hna j Ov) as (Q & _). rewrite Q. unfold wall, e_z. cbn. fold ch. lra.
    + rewrite rdot_scale_r. apply Up. rewrite rdot_add_r, !rdot_scale_r. destruct Meet as [<-|[<-|[<-|[]]]].
      * unfold spoke, e_z. cbn. lra.
      * destruct (wall_spoke na Hna (prv na j) (prv_lt na Hna j Ov)) as (_ & Q). rewrite (nxt_prv na Hna j Ov) in Q. rewrite Q. unfold wall, e_z. cbn. fold ch. lra.
      * destruct (wall_spoke na Hna j Ov) as (Q & _). rewrite Q. unfold wall, e_z. cbn. fold ch. lra.
  - fold cnt. rewrite Ec. lra.
  - intros v _. fold cnt eps0. destruct v; cbn [nu]; lra.
  - exists ns. split; [exact En|]. split; [exact Ln|]. intros v n q Hnn Hq. destruct (HN v n q Hnn Hq) as (F1 & F2 & u & Ou & Du & Hd). fold cnt eps0 in Hd.
    split; [exact F1|]. split; [exact F2|]. exists (rp u). split; [exact Du|].
    assert (Out : forall X, ch / b - eps0 <= / b * X -> ch - 2 * eps <= X).
    { intros X HX'. apply Rmult_le_compat_l with (r := b) in HX'; [|lra]. replace (b * (ch / b - eps0)) with (ch - b * eps0) in HX' by (field; lra). rewrite <- Rmult_assoc, Rinv_r, Rmult_1_l in HX' by lra.
      assert (b * eps0 <= 3 / 2 * eps0) by (apply Rmult_le_compat_r; lra). lra. }
    unfold near. destruct u as [| |j|j]; cbn [nu yv_ok] in Hd, Ou; unfold Wd in Hd.
    + left. split; [exact PB|]. rewrite <- LD. lra.
    + right; left. split; [exact PT|]. rewrite <- LZ. lra.
    + right; right; left. split; [exact (RB j Ou)|]. apply Out. rewrite Sc, Add, !Sc, LZ, rdot_scale_r in Hd. rewrite DB. replace (rscale 1 (lin (spoke na j))) with (lin (spoke na j)) in Hd; [exact Hd|]. generalize (lin (spoke na j)). clear. intros w. apply eq_by_dot. intros. vring.
    + right; right; right. split; [exact (RT j Ou)|]. apply Out. rewrite Sc, Add, !Sc, LZ, rdot_scale_r in Hd. rewrite DT.
      assert (One : forall w : vec R 3, rscale 1 w = w) by (clear; intros w; apply eq_by_dot; intros; vring). rewrite !One in Hd. exact Hd.
Qed.
Print Assumptions C94_cylinder_vertices.

Theorem C94_cone_vertices :
  forall p e Hp He, (2 < p)%Z -> forall f g h pi,
  let S := IEEE p e Hp He f g h pi in
  forall (L : Linal S) W meq dbg self SZ (rot_align : hvec S -> hvec S -> hmat S) (k K : Z) (na : nat) (co : cone S) (A : vec (vec R 3) 3) (d t M : R),
    (3 <= na)%nat -> (6 * na < W)%nat ->
    trig_accurate d f g pi -> equal_within L t -> identity_within meq t -> (3 - e - p <= 2 * k)%Z ->
    let seg := co_segment co in
    let src := g_source seg : vec (binary_float p e) 3 in let tgt := g_target seg : vec (binary_float p e) 3 in
    let r := B2R (co_radius co : binary_float p e) in let l := rdist (vreal tgt) (vreal src) in
    in_reach tgt src -> (forall i, (i < 3)%nat -> Rabs (fval i src) <= M) -> M <= bpow radix2 (e - 4) ->
    is_finite (co_radius co : binary_float p e) = true -> 0 < r -> r + l <= bpow radix2 (e - 4) ->
    rotation_onto A (rdirection (rsub (vreal tgt) (vreal src))) ->
    rotation_within d A (rot_align (mk4 s0 s0 s1 s1) (to_hvec (segment_direction seg))) ->
    (dbg = true -> isZero L (leps L) (segment_length seg) = false /\ isEq L (leps L) (vlength (segment_direction seg)) s1 = true) ->
    let c := 150 * (d * (r + l)) + 10 * bpow radix2 k + 4 * (uround p * M) + t * (1 + 3 * (r + l)) in
    INR na * (2 * c + t + bpow radix2 k) <= r -> 2 * (2 * c + t + bpow radix2 k) <= l ->
    let eps := 44 * INR na * ((r + l) * (r + l)) * c / (r * r * l) in 6 * eps * (r + l) <= r -> 6 * eps * (r + l) <= l -> scale_frame p e K (r + l) (r * r * l / INR na) ->
    let dir := rdirection (rsub (vreal tgt) (vreal src)) in let ch := cos (PI / INR na) in let sl := sqrt (l * l + r * ch * (r * ch)) in
    let near q n := q = vreal src /\ 1 - eps <= rdot n (rscale (-1) dir) \/ q = vreal tgt /\ r * ch / sl - eps <= rdot n dir \/
      rim na A (vreal src) r q /\ l * ch - 2 * (r + l) * eps <= rdot n (radd (rscale (sl + r * ch) (rdirection (rsub q (vreal src)))) (rscale (- (l * ch)) dir)) in
    exists m, mb_cone L W meq dbg self SZ rot_align na co = Ok (Some m) /\ length (m_facets m) = (2 * na)%nat /\
      float_vertex_normals L self m (fun q n => exists q', rdist q q' <= 2 * c /\ near q' n).
Proof.
  intros p e Hp He H2 f g h pi S L W meq dbg self SZ rot_align k K na co A d t M Hna HW Ht HL Hm Hk seg src tgt r l HR HsM HM Fr Hr Hre HA HX Hdbg c Hs1 Hs2 eps Her Hel Hfr dir ch sl near.
  destruct (cone_setup p e Hp He H2 f g h pi L W meq rot_align k na co A d t M Hna HW Ht HL Hm Hk HR HsM HM Fr Hr Hre HA HX Hs1 Hs2) as (fp & Ep & Hn & Hs & Hv & Hc & _ & Hl).
  destruct (cone_built p e Hp He H2 f g h pi L W meq dbg self SZ rot_align k na co Hna HW Hdbg Hn Hs Hv) as (m & Em & (_ & _ & _ & _ & _ & V6) & pos & Hpos & Hw).
  exists m. split; [exact Em|]. split; [exact V6|].
  assert (M0 : 0 <= M) by (eapply Rle_trans; [apply Rabs_pos|apply (HsM 0%nat); lia]).
  pose proof (@u_pos p) as U. pose proof (ew_slack _ _ HL) as t0. pose proof (ta_round _ _ _ _ Ht) as Hud. pose proof (bpow_gt_0 radix2 k) as b0.
  assert (Hl' : 0 < l) by exact Hl. assert (N3 : 3 <= INR na) by (apply (le_INR 3) in Hna; cbn in Hna; lra).
  assert (Hcu : 150 * (uround p * (r + l)) <= c).
  { unfold c. assert (uround p * (r + l) <= d * (r + l)) by (apply Rmult_le_compat_r; lra). assert (0 <= uround p * M) by (apply Rmult_le_pos; lra). assert (0 <= t * (1 + 3 * (r + l))) by (apply Rmult_le_pos; lra). lra. }
  assert (He4 : eps <= 1 / 4).
  { apply Rmult_le_reg_r with (r + l); [lra|]. lra. }
  destruct (eps_margin na (uround p) r l c Hna U Hr Hl' Hcu He4) as (Hout & Hnu & E43). fold eps in Hnu, E43.
  destruct (round_margin p na d t k M r l Hna Hr Hl t0 M0 Hud Hout) as (D0 & D16 & D500 & U1).
  assert (nu0 : 0 < INR na * uround p) by (apply Rmult_lt_0_compat; lra). assert (nu3 : 3 * uround p <= INR na * uround p) by (apply Rmult_le_compat_r; lra).
  assert (Hps : forall v, In v (kvs na) -> pos v = fp v) by (apply map_eq_in; exact (eq_trans Hpos Ep)).
  set (lin := affine A rzero). set (nor := fun t => lin (knor na r l t)). set (rp := fun v => affine A (vreal src) (kpos na r l v)).
  (* the points *)
  assert (PB : rp KC = vreal src) by apply affine_start. assert (PT : rp KP = vreal tgt) by apply (affine_end A _ _ Hl HA).
  assert (DB : forall j, rdirection (rsub (rp (KR j)) (vreal src)) = lin (spoke na j)) by (intros j; apply (rim_direction A dir HA na r (vreal src) j Hr)).
  assert (RB : forall j, (j < na)%nat -> rim na A (vreal src) r (rp (KR j))) by (intros j Hj; exists j; split; [exact Hj|reflexivity]).
  assert (LD : lin (down) = rscale (-1) dir) by apply (lin_down A dir HA). assert (LZ : lin e_z = dir) by apply (lin_ez A dir HA).
  pose proof (lin_rigid_dot A dir HA) as LR. fold lin in LR. pose proof (half_le na Hna) as Hch. fold ch in Hch.
  assert (Add : forall u v, lin (radd u v) = radd (lin u) (lin v)) by (intros u v; apply (lin_add A)). assert (Sc : forall k u, lin (rscale k u) = rscale k (lin u)) by (intros k0 u; apply (lin_scale A)).
  assert (s0' : 0 < sl) by apply (slant_pos na Hna r l Hr). assert (Esl : slant na r l = sl) by reflexivity. pose proof (slant_sq na r l) as Q2. rewrite Esl in Q2. change (cos (PI / INR na)) with ch in Q2.
  assert (rc0 : 0 < r * ch <= r) by (split; [apply Rmult_lt_0_compat; lra|rewrite <- (Rmult_1_r r) at 2; apply Rmult_le_compat_l; lra]).
  assert (rc2 : r * (1 / 2) <= r * ch) by (apply Rmult_le_compat_l; lra). assert (lc2 : l * (1 / 2) <= l * ch) by (apply Rmult_le_compat_l; lra).
  assert (lc0 : 0 < l * ch <= l) by (split; [apply Rmult_lt_0_compat; lra|rewrite <- (Rmult_1_r l) at 2; apply Rmult_le_compat_l; lra]).
  assert (Hsl : sl <= l + r * ch).
  { apply Rsqr_incr_0_var; [|lra]. unfold Rsqr. rewrite Q2. assert (0 <= l * (r * ch)) by (apply Rmult_le_pos; lra). lra. }
  set (b := sqrt ((sl + r * ch) * (sl + r * ch) + - (l * ch) * - (l * ch))).
  assert (sx : 0 < sl + r * ch) by lra.
  assert (Lean : forall j, rnorm (rscale (/ b) (radd (rscale (sl + r * ch) (spoke na j)) (rscale (- (l * ch)) e_z))) = 1) by (intros j; exact (proj2 (proj2 (lean_unit na j (sl + r * ch) (- (l * ch)) sx)))).
  assert (Hb : 0 < b <= 2 * (r + l)).
  { destruct (lean_unit na 0 (sl + r * ch) (- (l * ch)) sx) as (B1 & B2 & _). fold b in B1, B2. rewrite Rabs_Ropp, Rabs_right in B2 by lra. lra. }
  assert (Hax : eps <= r * ch / sl).
  { apply Rmult_le_reg_r with sl; [lra|]. replace (r * ch / sl * sl) with (r * ch) by (field; lra). apply Rle_trans with (eps * (r + l)); [|lra]. apply Rmult_le_compat_l; lra. }
  assert (Hcb : eps <= l * ch / b).
  { apply Rmult_le_reg_r with b; [lra|]. replace (l * ch / b * b) with (l * ch) by (field; lra). apply Rle_trans with (eps * (2 * (r + l))); [|lra]. apply Rmult_le_compat_l; lra. }
  set (nu := fun v : kvert => match v with KC => 1 | KP => r * ch / sl | KR _ => l * ch / b end).
  set (Wd := fun v : kvert => lin match v with KC => down | KP => e_z | KR j => rscale (/ b) (radd (rscale (sl + r * ch) (spoke na j)) (rscale (- (l * ch)) e_z)) end).
  set (cnt := INR (3 * length (map (ktri na) (ktags na)))).
  assert (Ec : cnt = 6 * INR na) by (unfold cnt; rewrite map_length, ktags_length, !mult_INR; cbn [INR]; ring).
  set (eps0 := 43 * ((r + l) * (r + l)) * c / (r * r * l / INR na) + (12 / 5 * cnt + 12) * uround p).
  assert (He0 : 0 <= eps0 /\ eps0 + 13 * uround p <= eps) by (unfold eps0; rewrite E43, Ec; lra).
  destruct (mesh_tops f g h pi L self _ Hv (map (ktri na) (ktags na)) pos m (kv_ok na) rp (affine A (vreal src) (0, (0, (l / 2, tt)))) (r + l) c (r * r * l / INR na) K nor Wd nu)
    as (ns & En & Ln & HN).
  - exact Hw.
  - intros x y z Hin. exact (corners_in _ _ (cone_corner na Hna) x y z Hin).
  - intros v Hin. apply kvs_all in Hin. exact (eq_ind _ (fun l => In (pos v) l) (in_map pos (kvs na) v Hin) _ Hpos).
  - intros v Hin. apply kvs_all in Hin. rewrite (Hps v Hin). exact (Hc v Hin).
  - intros v Hin. apply kvs_all in Hin. unfold rp. rewrite (rigid_shift A (vreal src) (proj1 HA)). apply kpos_dist; assumption.
  - intros x y z Hin. unfold rp. rewrite sixvol_affine, (rigid_det A (proj1 HA) (proj1 (proj2 HA))), Rmult_1_l. apply ktri_sixvol; assumption.
  - exact D0.
  - lra.
  - exact D16.
  - exact D500.
  - exact U1.
  - exact Hfr.
  - exact Hcu.
  - intros x y z Hin. destruct (knor_normal na Hna r l Hr x y z Hin) as (N1 & kx & Hkx & EC). split; [unfold nor, lin; rewrite (lin_norm A (proj1 HA)); exact N1|].
    exists kx. split; [exact Hkx|]. apply (lin_normal A (proj1 HA) (proj1 (proj2 HA))). exact EC.
  - intros u v Hu Hvv. apply (map_inj_in pos (kvs na)); [exact (eq_ind_r _ Hn Hpos)|apply kvs_all, Hu|apply kvs_all, Hvv].
  - intros v _. unfold Wd, lin. rewrite (lin_norm A (proj1 HA)). destruct v as [| |j]; [apply down_unit|apply ez_unit|apply Lean].
  - intros x y z v Hin Hco. unfold nor, Wd. rewrite LR.
    assert (Ov : kv_ok na v) by (destruct (corners_in _ _ (cone_corner na Hna) x y z Hin) as (A1 & A2 & A3); destruct Hco as [-> | [-> | ->]]; assumption).
    assert (Meet : In (knor na r l (x, y, z)) (kmeet na r l v)) by (apply (kmeet_spec na Hna r l v Ov); exists (x, y, z); auto).
    assert (SA : forall j, rdot (side na r l j) e_z = r * ch / sl) by (intros j; apply side_axis).
    destruct v as [| |j]; cbn [kv_ok] in Ov; cbn [nu].
    + destruct Meet as [<-|[]]. unfold down. cbn. lra.
    + cbn [kmeet] in Meet. apply in_map_iff in Meet as (j & <- & _). rewrite SA. lra.
    + rewrite rdot_scale_r. unfold Rdiv. rewrite Rmult_comm. apply Rmult_le_compat_l; [left; apply Rinv_0_lt_compat; lra|].
      assert (Q : (sl + r * ch) * (l / sl * ch) + - (l * ch) * (r * ch / sl) = l * ch) by (field; lra).
      rewrite rdot_add_r, !rdot_scale_r. destruct Meet as [<-|[<-|[<-|[]]]].
      * unfold down, spoke, e_z. cbn. lra.
      * destruct (side_spoke na Hna r l (prv na j) (prv_lt na Hna j Ov)) as (_ & X). rewrite (nxt_prv na Hna j Ov) in X. rewrite X, SA, Esl. fold ch. lra.
      * destruct (side_spoke na Hna r l j Ov) as (X & _). rewrite X, SA, Esl. fold ch. lra.
  - fold cnt. rewrite Ec. lra.
  - intros v _. fold cnt eps0. destruct v; cbn [nu]; lra.
  - exists ns. split; [exact En|]. split; [exact Ln|]. intros v n q Hnn Hq. destruct (HN v n q Hnn Hq) as (F1 & F2 & u & Ou & Du & Hd). fold cnt eps0 in Hd.
    split; [exact F1|]. split; [exact F2|]. exists (rp u). split; [exact Du|].
    unfold near. destruct u as [| |j]; cbn [nu kv_ok] in Hd, Ou; unfold Wd in Hd.
    + left. split; [exact PB|]. rewrite <- LD. lra.
    + right; left. split; [exact PT|]. rewrite <- LZ. lra.
    + right; right. split; [exact (RB j Ou)|]. rewrite Sc, Add, !Sc, LZ, rdot_scale_r in Hd. rewrite DB.
      apply Rmult_le_compat_l with (r := b) in Hd; [|lra]. replace (b * (l * ch / b - eps0)) with (l * ch - b * eps0) in Hd by (field; lra). rewrite <- Rmult_assoc, Rinv_r, Rmult_1_l in Hd by lra.
      eapply Rle_trans; [|exact Hd]. assert (b * eps0 <= 2 * (r + l) * eps) by (apply Rmult_le_compat; lra). lra.
Qed.
Print Assumptions C94_cone_vertices.

(** The hypotheses are met by the cylinder (and cone) of C70 with 32 steps, for which the
    bound on the difference of the normals is small. *)
Example C94_example :
  let r := B2R (b64_ofZ 2) in let l := rdist (vreal (g_target caxis : vec b64 3)) (vreal (g_source caxis : vec b64 3)) in
  let c := 150 * (bpow radix2 (-52) * (r + l)) + 10 * bpow radix2 (-340) + 4 * (uround 53 * 4) + 0 * (1 + 3 * (r + l)) in
  16 * ((r + l) * (r + l)) * c * INR 32 <= r * r * l /\ scale_frame 53 1024 20 (r + l) (r * r * l / INR 32) /\
  let eps := 44 * INR 32 * ((r + l) * (r + l)) * c / (r * r * l) in eps <= 1 / 4 /\ 6 * eps * (r + l) <= r /\ 6 * eps * (r + l) <= l /\
  42 * INR 32 * ((r + l) * (r + l)) * c / (r * r * l) <= 1 / 100.
Proof.
  destruct (b64_small 1 ltac:(lia)) as (F1 & E1). destruct (b64_small 2 ltac:(lia)) as (F2 & E2).
  destruct (b64_small 3 ltac:(lia)) as (F3 & E3). destruct (b64_small 7 ltac:(lia)) as (F7 & E7).
  intros r l. assert (Er : r = 2) by exact E2.
  assert (Vs : vreal (g_source caxis : vec b64 3) = (1, (2, (3, tt)))).
  { transitivity (B2R (b64_ofZ 1), (B2R (b64_ofZ 2), (B2R (b64_ofZ 3), tt))); [reflexivity|]. rewrite E1, E2, E3. reflexivity. }
  assert (Vt : vreal (g_target caxis : vec b64 3) = (1, (2, (7, tt)))).
  { transitivity (B2R (b64_ofZ 1), (B2R (b64_ofZ 2), (B2R (b64_ofZ 7), tt))); [reflexivity|]. rewrite E1, E2, E7. reflexivity. }
  assert (El : l = 4).
  { unfold l, rdist, rnorm. rewrite Vs, Vt. cbn. replace ((1 - 1) * (1 - 1) + ((2 - 2) * (2 - 2) + ((7 - 3) * (7 - 3) + 0))) with (4 * 4) by ring.
    apply sqrt_square. lra. }
  rewrite Er, El. assert (E32 : INR 32 = 32) by (cbn; ring). rewrite E32. intros c.
  assert (d9 : bpow radix2 (-52) <= bpow radix2 (-30)) by (apply bpow_le; lia). assert (d20 : 1000000000 * bpow radix2 (-30) <= 1) by (cbn; lra).
  assert (u9 : uround 53 <= bpow radix2 (-30)) by (apply bpow_le; lia).
  assert (k9 : bpow radix2 (-340) <= bpow radix2 (-30)) by (apply bpow_le; lia).
  split; [unfold c; lra|]. split; [split; [lia|]; split; [lia|]; split; cbn; lra|].
  assert (Ee : 44 * 32 * ((2 + 4) * (2 + 4)) * c / (2 * 2 * 4) = 3168 * c) by field. cbv zeta. rewrite Ee. assert (c <= / 1000000) by (unfold c; lra). split; [lra|]. split; [lra|]. split; [lra|].
  replace (42 * 32 * ((2 + 4) * (2 + 4)) * c / (2 * 2 * 4)) with (3024 * c) by field. unfold c. lra.
Qed.
