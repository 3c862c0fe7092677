(** * Property theorems: the solid enclosed by tessellations in floating point (C89) *)

From Coq Require Import List Arith Bool Lia Permutation ZArith Reals Lra Psatz.
From Flocq Require Import Core BinarySingleNaN.
From Verif Require Import Scalar Linal Result SpecReal VecR VecLemmas ModelKdTree SpecKdTree SpecTransform SpecIEEE SpecFloatErr SpecFloatTess SpecFloatOut SpecConvex SpecFloatConvex
  ModelShapes ModelTransform ModelMesh SpecMesh ModelTess SpecTess ProofTransform ProofTessComb ProofTessConn ProofTessMesh ProofTessSphere ProofTessRound ProofTess ProofVolume ProofArea ProofConvex ProofConvexOut
  ProofRound ProofIEEE ProofFloatErr ProofFloatDist ProofFloatTrig ProofTessSafe ProofMeshIEEE ProofFloatTess ProofFloatRound ProofFloatOut ProofFloatConvex PropMeshIEEE PropFloatTess PropFloatRound PropFloatOut.
Import ListNotations.
Local Open Scope R_scope.

(** ** C89: the sphere.  The hypotheses are those of C68, for a sphere that is not too
    small for the number of its facets: the mesh encloses the ball that the exact one
    encloses, reduced by the factor [1 - w], and nothing outside the ball enlarged by
    the inverse factor. *)
Theorem C89_sphere :
  forall p e Hp He, (2 < p)%Z -> forall f g h pi,
  let S := IEEE p e Hp He f g h pi in
  forall (L : Linal S) W meq dbg self SZ (k : Z) (np na : nat) (o0 : point S) (s : sphere S) (d t M : R),
    (2 <= np)%nat -> (3 <= na)%nat -> (6 * na * (np - 1) < W)%nat -> meq hidentity hidentity = true ->
    trig_accurate d f g pi -> equal_within L t -> (3 - e - p <= 2 * k)%Z ->
    let o := s_origin s : vec (binary_float p e) 3 in let r := B2R (s_radius s : binary_float p e) in
    finite_pt o -> (forall i, (i < 3)%nat -> Rabs (fval i o) <= M) -> M <= bpow radix2 (e - 2) ->
    is_finite (s_radius s : binary_float p e) = true -> 0 < r <= bpow radix2 (e - 2) ->
    let c := 64 * (d * r) + uround p * M + t in
    INR np * INR na * (c + bpow radix2 k) <= r ->
    let w := 12 * (INR np * INR np * INR na) * c / r in w <= 1 / 2 ->
    exists m, mb_sphere L W meq dbg self SZ np na o0 s = Ok m /\
      (forall q, rdist q (vreal o) <= (1 - w) * (r * cos (PI / INR np / 2) * cos (PI / INR na)) -> float_enclosed m q) /\
      (forall q, float_enclosed m q -> (1 - w) * rdist q (vreal o) <= r).
Proof.
  intros p e Hp He H2 f g h pi S L W meq dbg self SZ k np na o0 s d t M Hnp Hna HW Hid Ht HL Hk o r Fo HoM HM Fr (Hr & Hre) c Hsep w Hw1.
  destruct (sphere_setup p e Hp He H2 f g h pi L W meq k np na s d t M Hnp Hna HW Hid Ht HL Hk Fo HoM HM Fr (conj Hr Hre) Hsep) as (Ep & Hnd & Hs & Hv & Hc & _).
  destruct (sphere_built p e Hp He H2 f g h pi L W meq dbg self SZ k np na o0 s Hnp Hna HW Hid Hnd Hs Hv) as (m & Em & _ & pos & Hpos & Hw).
  exists m. split; [exact Em|].
  pose proof (@u_pos p) as Hu. pose proof (ta_round _ _ _ _ Ht) as Hud. pose proof (ew_slack _ _ HL) as t0. pose proof (bpow_gt_0 radix2 k) as k0.
  assert (P : 2 <= INR np) by exact (INR_p np Hnp). assert (A : 3 <= INR na) by exact (INR_a na Hna).
  assert (M0 : 0 <= M) by (eapply Rle_trans; [apply Rabs_pos|apply (HoM 0%nat); lia]).
  assert (c0 : 0 <= c).
  { assert (0 <= uround p * M) by (apply Rmult_le_pos; lra). assert (0 <= d * r) by (apply Rmult_le_pos; lra). unfold c. lra. }
  assert (N6 : 6 <= INR np * INR na) by (assert (2 * 3 <= INR np * INR na) by (apply Rmult_le_compat; lra); lra).
  assert (c6 : 6 * c <= r).
  { eapply Rle_trans; [|exact Hsep]. apply Rmult_le_compat; lra. }
  set (N := INR np * INR np * INR na) in *.
  assert (N12 : 12 <= N). { unfold N. assert (2 * 2 <= INR np * INR np) by (apply Rmult_le_compat; lra). assert (4 * 3 <= INR np * INR np * INR na) by (apply Rmult_le_compat; lra). lra. }
  assert (w0 : 0 <= w).
  { unfold w. apply Rmult_le_pos; [|left; apply Rinv_0_lt_compat, Hr]. apply Rmult_le_pos; lra. }
  assert (Hps : forall v, In v (svs np na) -> pos v = fpos f g h pi L np na s v).
  { apply map_eq_in. exact (eq_trans Hpos Ep). }
  assert (Hall : forall v, sv_ok np na v -> In v (svs np na)).
  { exact (svs_all np na). }
  destruct (float_sandwich f g h pi L self _ Hv (map (ctri np na) (ctags np na)) pos m (fun v => In v (svs np na)) (spos np na (vreal o) r) (vreal o) r c (8 * (r * r * r) / N) w) as (I1 & I2).
  - exact Hw.
  - intros x y z Hin. destruct (corners_in _ _ (sphere_corner np na Hnp Hna) x y z Hin) as (A1 & A2 & A3). auto.
  - intros v Hin. exact (eq_ind _ (fun l => In (pos v) l) (in_map pos (svs np na) v Hin) _ Hpos).
  - intros v Hin. rewrite (Hps v Hin). exact (Hc v Hin).
  - intros v Hin. right. apply (spos_on_sphere np na (vreal o) r Hr). apply (spos_grid np na Hnp Hna). exists v. split; [exact (svs_ok np na v Hin)|reflexivity].
  - intros x y z Hin. apply (ctri_sixvol np na Hnp Hna (vreal o) r Hr x y z Hin).
  - exact Hr.
  - exact c0.
  - exact c6.
  - split; assumption.
  - apply Req_le. unfold w. field. split; lra.
  - intros q Hq. exact (sphere_inside np na Hnp Hna (vreal o) r Hr q Hq).
  - split.
    + intros q Hq. destruct (toward_back (vreal o) w q ltac:(lra)) as (q' & -> & E). apply I1. intros x y z Hin.
      apply (sphere_ball_side np na Hnp Hna (vreal o) r Hr); [|exact Hin].
      rewrite toward_dist, Rabs_pos_eq in Hq by lra. apply Rmult_le_reg_l with (1 - w); [lra|exact Hq].
    + intros q Hq0. pose proof (sphere_inside np na Hnp Hna (vreal o) r Hr _ (I2 q Hq0)) as Hq.
      rewrite toward_dist, Rabs_pos_eq in Hq by lra. exact Hq.
Qed.
Print Assumptions C89_sphere.

(** In double precision, for a centre at most 2^20 radii away from the origin. *)
Corollary C89_sphere_double :
  forall f g h pi, let S := B64 f g h pi in
  forall (L : Linal S) W meq dbg self SZ (np na : nat) (o0 : point S) (s : sphere S),
    (2 <= np)%nat -> (3 <= na)%nat -> INR np * INR np * INR na <= bpow radix2 27 -> (6 * na * (np - 1) < W)%nat -> meq hidentity hidentity = true ->
    trig_accurate (bpow radix2 (-52)) f g pi -> equal_within L 0 ->
    let o := s_origin s : vec b64 3 in let r := B2R (s_radius s : b64) in
    finite_pt o -> is_finite (s_radius s : b64) = true -> bpow radix2 (-300) <= r <= bpow radix2 900 ->
    (forall i, (i < 3)%nat -> Rabs (fval i o) <= bpow radix2 20 * r) ->
    let w := bpow radix2 (-28) * (INR np * INR np * INR na) in
    exists m, mb_sphere L W meq dbg self SZ np na o0 s = Ok m /\
      (forall q, rdist q (vreal o) <= (1 - w) * (r * cos (PI / INR np / 2) * cos (PI / INR na)) -> float_enclosed m q) /\
      (forall q, float_enclosed m q -> (1 - w) * rdist q (vreal o) <= r).
Proof.
  intros f g h pi S L W meq dbg self SZ np na o0 s Hnp Hna HN HW Hid Ht HL o r Fo Fr (Hr1 & Hr2) Ho w.
  pose proof (bpow_gt_0 radix2 (-300)) as B0. pose proof (bpow_gt_0 radix2 (-52)) as B1. pose proof (bpow_gt_0 radix2 20) as B2. pose proof (bpow_gt_0 radix2 (-34)) as B34.
  assert (r0 : 0 < r) by lra.
  assert (E1 : bpow radix2 (-52) = bpow radix2 (-53) * 2) by (change 2 with (bpow radix2 1); rewrite <- bpow_plus; reflexivity).
  assert (E2 : bpow radix2 (-53) * bpow radix2 20 = bpow radix2 (-33)) by (rewrite <- bpow_plus; reflexivity).
  assert (E3 : 128 * bpow radix2 (-53) = bpow radix2 (-46)) by (change 128 with (bpow radix2 7); rewrite <- bpow_plus; reflexivity).
  assert (E4 : bpow radix2 (-46) <= bpow radix2 (-34)) by (apply bpow_le; lia).
  assert (E5 : bpow radix2 (-33) = 2 * bpow radix2 (-34)) by (change 2 with (bpow radix2 1); rewrite <- bpow_plus; reflexivity).
  assert (E6 : bpow radix2 (-32) = 4 * bpow radix2 (-34)) by (change 4 with (bpow radix2 2); rewrite <- bpow_plus; reflexivity).
  assert (E8 : bpow radix2 (-28) = 64 * bpow radix2 (-34)) by (change 64 with (bpow radix2 6); rewrite <- bpow_plus; reflexivity).
  assert (E9 : bpow radix2 (-28) * bpow radix2 27 = 1 / 2) by (rewrite <- bpow_plus; cbn; lra).
  assert (E7 : bpow radix2 (-340) <= bpow radix2 (-34) * r).
  { replace (bpow radix2 (-340)) with (bpow radix2 (-40) * bpow radix2 (-300)) by (rewrite <- bpow_plus; reflexivity).
    apply Rmult_le_compat; try apply bpow_ge_0; [apply bpow_le; lia|exact Hr1]. }
  assert (Hm : bpow radix2 20 * r <= bpow radix2 (1024 - 2)).
  { apply Rle_trans with (bpow radix2 20 * bpow radix2 900); [apply Rmult_le_compat_l; lra|]. rewrite <- bpow_plus. apply bpow_le. lia. }
  assert (Hre : r <= bpow radix2 (1024 - 2)) by (eapply Rle_trans; [exact Hr2|]; apply bpow_le; lia).
  assert (Hsum : 64 * (bpow radix2 (-52) * r) + uround 53 * (bpow radix2 20 * r) + 0 <= 3 * bpow radix2 (-34) * r).
  { unfold uround. change (- (53))%Z with (-53)%Z. replace (64 * (bpow radix2 (-52) * r)) with (bpow radix2 (-46) * r) by (rewrite <- E3, E1; ring).
    rewrite <- Rmult_assoc, E2, E5. assert (bpow radix2 (-46) * r <= bpow radix2 (-34) * r) by (apply Rmult_le_compat_r; lra). lra. }
  assert (P : 2 <= INR np) by exact (INR_p np Hnp). assert (A : 3 <= INR na) by exact (INR_a na Hna).
  assert (N0 : 0 <= INR np * INR na) by (apply Rmult_le_pos; lra).
  assert (NN : INR np * INR na <= INR np * INR np * INR na).
  { replace (INR np * INR np * INR na) with (INR np * (INR np * INR na)) by ring. assert (1 * (INR np * INR na) <= INR np * (INR np * INR na)) by (apply Rmult_le_compat_r; lra). lra. }
  assert (HN30 : INR np * INR na <= bpow radix2 30) by (apply Rle_trans with (bpow radix2 27); [lra|apply bpow_le; lia]).
  set (N := INR np * INR np * INR na) in *.
  set (c := 64 * (bpow radix2 (-52) * r) + uround 53 * (bpow radix2 20 * r) + 0) in *.
  assert (Hww : 12 * N * c / r <= w).
  { apply Rmult_le_reg_r with r; [exact r0|]. replace (12 * N * c / r * r) with (12 * N * c) by (field; lra).
    apply Rle_trans with (12 * N * (3 * bpow radix2 (-34) * r)); [apply Rmult_le_compat_l; [lra|exact Hsum]|].
    unfold w. fold N. rewrite E8. assert (0 <= bpow radix2 (-34) * N * r) by (repeat apply Rmult_le_pos; lra). lra. }
  assert (w1 : w <= 1 / 2). { rewrite <- E9. apply Rmult_le_compat_l; [lra|exact HN]. }
  destruct (C89_sphere 53 1024 prec53 prec_emax64 eq_refl f g h pi L W meq dbg self SZ (-340) np na o0 s (bpow radix2 (-52)) 0 (bpow radix2 20 * r)
    Hnp Hna HW Hid Ht HL ltac:(lia) Fo Ho Hm Fr (conj r0 Hre)) as (m & Em & V1 & V2).
  - apply Rle_trans with (bpow radix2 30 * (4 * bpow radix2 (-34) * r)).
    + apply Rmult_le_compat; [exact N0| |exact HN30|].
      * assert (0 <= uround 53 * (bpow radix2 20 * r)) by (apply Rmult_le_pos; [apply bpow_ge_0|apply Rmult_le_pos; lra]).
        assert (0 <= bpow radix2 (-52) * r) by (apply Rmult_le_pos; lra). pose proof (bpow_gt_0 radix2 (-340)). match goal with |- context [B2R ?x] => change (B2R x) with r end. lra.
      * match goal with |- context [B2R ?x] => change (B2R x) with r end. fold c. lra.
    + rewrite <- E6, <- Rmult_assoc, <- bpow_plus. change (bpow radix2 (30 + -32)) with (/ 4).
      match goal with |- _ <= B2R ?x => change (B2R x) with r end. lra.
  - exact (Rle_trans _ _ _ Hww w1).
  - exists m. split; [exact Em|]. cbv zeta in V1, V2. change (B2R (s_radius s : b64)) with r in V1, V2. fold N c o in V1, V2.
    set (w' := 12 * N * c / r) in *.
    pose proof (half_range na Hna) as [_ Hca]. destruct (ProofArea.half_polar np Hnp) as (Hc1 & Hcp & Hc3).
    split.
    + intros q Hq. apply V1. eapply Rle_trans; [exact Hq|]. apply Rmult_le_compat_r; [|lra].
      repeat apply Rmult_le_pos; lra.
    + intros q Hq. eapply Rle_trans; [|exact (V2 q Hq)]. apply Rmult_le_compat_r; [apply rnorm_nonneg|lra].
Qed.
Print Assumptions C89_sphere_double.

(** The points of the exact solids, seen from the middle of the axis. *)
Lemma round_reach (r len x y z : R) : 0 < r -> 0 < len -> 0 <= z <= len -> x * x + y * y <= r * r ->
  @rdist 3 (x, (y, (z, tt))) (0, (0, (len / 2, tt))) <= r + len.
Proof.
  intros Hr Hl Hz Hxy. unfold rdist, rnorm, rdot. cbn. apply Rle_trans with (sqrt ((r + len) * (r + len))); [|rewrite sqrt_square; lra].
  apply sqrt_le_1_alt. assert ((z - len / 2) * (z - len / 2) <= len * len) by nra. assert (0 < r * len) by (apply Rmult_lt_0_compat; assumption).
  rewrite !Rminus_0_r. lra.
Qed.
Lemma shrunk_square r u : 0 < r -> 0 <= u <= 1 -> r * (1 - u) * (r * (1 - u)) <= r * r.
Proof. intros Hr Hu. assert (0 <= r * (1 - u) <= r) by nra. apply Rmult_le_compat; lra. Qed.

(** ** C89: cones and cylinders.  The hypotheses are those of C70, for a shape that is
    not too small for the number of its facets; points move towards the middle of the
    axis. *)
Theorem C89_cone :
  forall p e Hp He, (2 < p)%Z -> forall f g h pi,
  let S := IEEE p e Hp He f g h pi in
  forall (L : Linal S) W meq dbg self SZ (rot_align : hvec S -> hvec S -> hmat S) (k : Z) (na : nat) (co : cone S) (A : vec (vec R 3) 3) (d t M : R),
    (3 <= na)%nat -> (6 * na < W)%nat ->
    trig_accurate d f g pi -> equal_within L t -> identity_within meq t -> (3 - e - p <= 2 * k)%Z ->
    let seg := co_segment co in
    let src := g_source seg : vec (binary_float p e) 3 in let tgt := g_target seg : vec (binary_float p e) 3 in
    let r := B2R (co_radius co : binary_float p e) in let l := rdist (vreal tgt) (vreal src) in
    in_reach tgt src -> (forall i, (i < 3)%nat -> Rabs (fval i src) <= M) -> M <= bpow radix2 (e - 4) ->
    is_finite (co_radius co : binary_float p e) = true -> 0 < r -> r + l <= bpow radix2 (e - 4) ->
    rotation_onto A (rdirection (rsub (vreal tgt) (vreal src))) ->
    rotation_within d A (rot_align (mk4 s0 s0 s1 s1) (to_hvec (segment_direction seg))) ->
    (dbg = true -> isZero L (leps L) (segment_length seg) = false /\ isEq L (leps L) (vlength (segment_direction seg)) s1 = true) ->
    let c := 150 * (d * (r + l)) + 10 * bpow radix2 k + 4 * (uround p * M) + t * (1 + 3 * (r + l)) in
    INR na * (2 * c + t + bpow radix2 k) <= r -> 2 * (2 * c + t + bpow radix2 k) <= l ->
    let w := 96 * ((r + l) * (r + l)) * c * INR na / (r * r * l) in w <= 1 / 2 ->
    let mid := rscale (1 / 2) (radd (vreal src) (vreal tgt)) in
    exists m, mb_cone L W meq dbg self SZ rot_align na co = Ok (Some m) /\
      (forall q, solid_cone (vreal src) (vreal tgt) (r * cos (PI / INR na)) q -> float_enclosed m (toward mid w q)) /\
      (forall q, float_enclosed m q -> solid_cone (vreal src) (vreal tgt) r (toward mid w q)).
Proof.
  intros p e Hp He H2 f g h pi S L W meq dbg self SZ rot_align k na co A d t M Hna HW Ht HL Hm Hk seg src tgt r l HR HsM HM Fr Hr Hre HA HX Hdbg c Hs1 Hs2 w Hw1 mid.
  destruct (cone_setup p e Hp He H2 f g h pi L W meq rot_align k na co A d t M Hna HW Ht HL Hm Hk HR HsM HM Fr Hr Hre HA HX Hs1 Hs2) as (fp & Ep & Hn & Hs & Hv & Hc & _ & Hl).
  destruct (cone_built p e Hp He H2 f g h pi L W meq dbg self SZ rot_align k na co Hna HW Hdbg Hn Hs Hv) as (m & Em & _ & pos & Hpos & Hw).
  exists m. split; [exact Em|].
  assert (Hps : forall v, In v (kvs na) -> pos v = fp v) by (apply map_eq_in; exact (eq_trans Hpos Ep)).
  pose proof (ew_slack _ _ HL) as t0. pose proof (bpow_gt_0 radix2 k) as k0. pose proof (INR_a na Hna) as Ia. pose proof (@u_pos p) as Hu. pose proof (ta_round _ _ _ _ Ht) as Hud.
  assert (M0 : 0 <= M) by (eapply Rle_trans; [apply Rabs_pos|apply (HsM 0%nat); lia]).
  change (0 < l) in Hl.
  assert (c0 : 0 <= c).
  { assert (0 <= uround p * M) by (apply Rmult_le_pos; lra). assert (0 <= d * (r + l)) by (apply Rmult_le_pos; lra). assert (0 <= t * (1 + 3 * (r + l))) by (apply Rmult_le_pos; lra). unfold c. lra. }
  assert (c6 : 6 * c <= r + l).
  { assert (3 * (2 * c) <= INR na * (2 * c + t + bpow radix2 k)) by (apply Rmult_le_compat; lra). lra. }
  assert (V0 : 0 < r * r * l) by (repeat apply Rmult_lt_0_compat; assumption).
  assert (w0 : 0 <= w).
  { unfold w. apply Rmult_le_pos; [|left; apply Rinv_0_lt_compat, V0]. repeat apply Rmult_le_pos; lra. }
  pose proof (affine_mid A (vreal src) (vreal tgt) Hl HA) as Emid. change (rdist (vreal tgt) (vreal src)) with l in Emid. fold mid in Emid.
  pose proof HA as (Hrig & Hdet & _). pose proof (half_range na Hna) as [_ Hca].
  set (sg := @mkSegment (RS 1) 3 (vreal src) (vreal tgt)).
  assert (HA' : rotation_onto A (@segment_direction (RS 1) 3 sg)) by (rewrite direction_R; exact HA).
  assert (Loc : forall rho x y z, 0 <= rho -> solid_cone (vreal src) (vreal tgt) rho (affine A (vreal src) (x, (y, (z, tt)))) <-> 0 <= z <= l /\ x * x + y * y <= (rho * (1 - z / l)) * (rho * (1 - z / l))).
  { intros rho x y z Hrho. exact (solid_cone_local 1 sg A HA' Hl rho x y z Hrho). }
  assert (In1 : forall q', (forall u v w', In (u, v, w') (map (ktri na) (ktags na)) -> 0 <= sixvol (affine A (vreal src) q') (affine A (vreal src) (kpos na r l w')) (affine A (vreal src) (kpos na r l v)) (affine A (vreal src) (kpos na r l u))) ->
    forall u v w', In (u, v, w') (map (ktri na) (ktags na)) -> 0 <= sixvol q' (kpos na r l w') (kpos na r l v) (kpos na r l u)).
  { intros q' H u v w' Hin. specialize (H u v w' Hin). rewrite sixvol_affine, (rigid_det A Hrig Hdet), Rmult_1_l in H. exact H. }
  destruct (float_sandwich f g h pi L self _ Hv (map (ktri na) (ktags na)) pos m (fun v => In v (kvs na)) (fun v => affine A (vreal src) (kpos na r l v)) mid (r + l) c (r * r * l / INR na) w) as (I1 & I2).
  - exact Hw.
  - intros x y z Hin. destruct (corners_in _ _ (cone_corner na Hna) x y z Hin) as (A1 & A2 & A3). repeat split; apply kvs_all; assumption.
  - intros v Hin. exact (eq_ind _ (fun l => In (pos v) l) (in_map pos (kvs na) v Hin) _ Hpos).
  - intros v Hin. rewrite (Hps v Hin). exact (Hc v Hin).
  - intros v Hin. rewrite <- Emid, (rigid_shift A (vreal src) (proj1 HA)). apply kpos_dist; assumption.
  - intros x y z Hin. rewrite <- Emid, sixvol_affine, (rigid_det A Hrig Hdet), Rmult_1_l. apply ktri_sixvol; assumption.
  - lra.
  - exact c0.
  - exact c6.
  - split; assumption.
  - apply Req_le. unfold w. field. repeat split; lra.
  - intros q Hq. destruct (linear_surj A (vreal src) q Hrig Hdet) as ((x & y & z & []) & ->). pose proof (In1 _ Hq) as Hq'.
    assert (B : 0 <= z <= l /\ x * x + y * y <= r * r).
    { destruct (cone_inside na Hna r l Hr Hl x y z Hq') as (Z1 & Z2). split; [exact Z1|]. eapply Rle_trans; [exact Z2|]. apply shrunk_square; [exact Hr|]. split; [apply Rmult_le_pos; [lra|left; apply Rinv_0_lt_compat, Hl]|]. apply Rmult_le_reg_r with l; [exact Hl|]. unfold Rdiv. rewrite Rmult_assoc, Rinv_l, Rmult_1_r, Rmult_1_l by lra. lra. }
    rewrite <- Emid, (rigid_shift A (vreal src) (proj1 HA)). apply round_reach; [exact Hr|exact Hl|apply B|apply B].
  - split.
    + intros q Hq. apply I1. destruct (linear_surj A (vreal src) q Hrig Hdet) as ((x & y & z & []) & ->).
      apply Loc in Hq; [|apply Rmult_le_pos; lra]. intros u v w' Hin. rewrite sixvol_affine, (rigid_det A Hrig Hdet), Rmult_1_l.
      apply (cone_inner_side na Hna _ _ Hr Hl); assumption.
    + intros q Hq0. pose proof (I2 q Hq0) as Hq. destruct (linear_surj A (vreal src) (toward mid w q) Hrig Hdet) as ((x & y & z & []) & Eq). rewrite Eq in Hq |- *.
      apply Loc; [lra|]. apply (cone_inside na Hna r _ Hr Hl). apply In1. exact Hq.
Qed.
Print Assumptions C89_cone.

Theorem C89_cylinder :
  forall p e Hp He, (2 < p)%Z -> forall f g h pi,
  let S := IEEE p e Hp He f g h pi in
  forall (L : Linal S) W meq dbg self SZ (rot_align : hvec S -> hvec S -> hmat S) (k : Z) (na : nat) (cy : cylinder S) (A : vec (vec R 3) 3) (d t M : R),
    (3 <= na)%nat -> (12 * na < W)%nat ->
    trig_accurate d f g pi -> equal_within L t -> identity_within meq t -> (3 - e - p <= 2 * k)%Z ->
    let seg := cy_segment cy in
    let src := g_source seg : vec (binary_float p e) 3 in let tgt := g_target seg : vec (binary_float p e) 3 in
    let r := B2R (cy_radius cy : binary_float p e) in let l := rdist (vreal tgt) (vreal src) in
    in_reach tgt src -> (forall i, (i < 3)%nat -> Rabs (fval i src) <= M) -> M <= bpow radix2 (e - 4) ->
    is_finite (cy_radius cy : binary_float p e) = true -> 0 < r -> r + l <= bpow radix2 (e - 4) ->
    rotation_onto A (rdirection (rsub (vreal tgt) (vreal src))) ->
    rotation_within d A (rot_align (mk4 s0 s0 s1 s1) (to_hvec (segment_direction seg))) ->
    let c := 150 * (d * (r + l)) + 10 * bpow radix2 k + 4 * (uround p * M) + t * (1 + 3 * (r + l)) in
    INR na * (2 * c + t + bpow radix2 k) <= r -> 2 * (2 * c + t + bpow radix2 k) <= l ->
    let w := 96 * ((r + l) * (r + l)) * c * INR na / (r * r * l) in w <= 1 / 2 ->
    let mid := rscale (1 / 2) (radd (vreal src) (vreal tgt)) in
    exists m, mb_cylinder L W meq dbg self SZ rot_align na cy = Ok (Some m) /\
      (forall q, solid_cylinder (vreal src) (vreal tgt) (r * cos (PI / INR na)) q -> float_enclosed m (toward mid w q)) /\
      (forall q, float_enclosed m q -> solid_cylinder (vreal src) (vreal tgt) r (toward mid w q)).
Proof.
  intros p e Hp He H2 f g h pi S L W meq dbg self SZ rot_align k na cy A d t M Hna HW Ht HL Hm Hk seg src tgt r l HR HsM HM Fr Hr Hre HA HX c Hs1 Hs2 w Hw1 mid.
  destruct (cylinder_setup p e Hp He H2 f g h pi L W meq rot_align k na cy A d t M Hna HW Ht HL Hm Hk HR HsM HM Fr Hr Hre HA HX Hs1 Hs2) as (fp & Ep & Hn & Hs & Hv & Hc & _ & Hl).
  destruct (cylinder_built p e Hp He H2 f g h pi L W meq dbg self SZ rot_align k na cy Hna HW Hn Hs Hv) as (m & Em & _ & pos & Hpos & Hw).
  exists m. split; [exact Em|].
  assert (Hps : forall v, In v (yvs na) -> pos v = fp v) by (apply map_eq_in; exact (eq_trans Hpos Ep)).
  pose proof (ew_slack _ _ HL) as t0. pose proof (bpow_gt_0 radix2 k) as k0. pose proof (INR_a na Hna) as Ia. pose proof (@u_pos p) as Hu. pose proof (ta_round _ _ _ _ Ht) as Hud.
  assert (M0 : 0 <= M) by (eapply Rle_trans; [apply Rabs_pos|apply (HsM 0%nat); lia]).
  change (0 < l) in Hl.
  assert (c0 : 0 <= c).
  { assert (0 <= uround p * M) by (apply Rmult_le_pos; lra). assert (0 <= d * (r + l)) by (apply Rmult_le_pos; lra). assert (0 <= t * (1 + 3 * (r + l))) by (apply Rmult_le_pos; lra). unfold c. lra. }
  assert (c6 : 6 * c <= r + l).
  { assert (3 * (2 * c) <= INR na * (2 * c + t + bpow radix2 k)) by (apply Rmult_le_compat; lra). lra. }
  assert (V0 : 0 < r * r * l) by (repeat apply Rmult_lt_0_compat; assumption).
  assert (w0 : 0 <= w).
  { unfold w. apply Rmult_le_pos; [|left; apply Rinv_0_lt_compat, V0]. repeat apply Rmult_le_pos; lra. }
  pose proof (affine_mid A (vreal src) (vreal tgt) Hl HA) as Emid. change (rdist (vreal tgt) (vreal src)) with l in Emid. fold mid in Emid.
  pose proof HA as (Hrig & Hdet & _). pose proof (half_range na Hna) as [_ Hca].
  set (sg := @mkSegment (RS 1) 3 (vreal src) (vreal tgt)).
  assert (HA' : rotation_onto A (@segment_direction (RS 1) 3 sg)) by (rewrite direction_R; exact HA).
  assert (Loc : forall rho x y z, 0 <= rho -> solid_cylinder (vreal src) (vreal tgt) rho (affine A (vreal src) (x, (y, (z, tt)))) <-> 0 <= z <= l /\ x * x + y * y <= rho * rho).
  { intros rho x y z Hrho. exact (solid_cylinder_local 1 sg A HA' Hl rho x y z Hrho). }
  assert (In1 : forall q', (forall u v w', In (u, v, w') (map (ytri na) (ytags na)) -> 0 <= sixvol (affine A (vreal src) q') (affine A (vreal src) (ypos na r l w')) (affine A (vreal src) (ypos na r l v)) (affine A (vreal src) (ypos na r l u))) ->
    forall u v w', In (u, v, w') (map (ytri na) (ytags na)) -> 0 <= sixvol q' (ypos na r l w') (ypos na r l v) (ypos na r l u)).
  { intros q' H u v w' Hin. specialize (H u v w' Hin). rewrite sixvol_affine, (rigid_det A Hrig Hdet), Rmult_1_l in H. exact H. }
  destruct (float_sandwich f g h pi L self _ Hv (map (ytri na) (ytags na)) pos m (fun v => In v (yvs na)) (fun v => affine A (vreal src) (ypos na r l v)) mid (r + l) c (r * r * l / INR na) w) as (I1 & I2).
  - exact Hw.
  - intros x y z Hin. destruct (corners_in _ _ (cyl_corner na Hna) x y z Hin) as (A1 & A2 & A3). repeat split; apply yvs_all; assumption.
  - intros v Hin. exact (eq_ind _ (fun l => In (pos v) l) (in_map pos (yvs na) v Hin) _ Hpos).
  - intros v Hin. rewrite (Hps v Hin). exact (Hc v Hin).
  - intros v Hin. rewrite <- Emid, (rigid_shift A (vreal src) (proj1 HA)). apply ypos_dist; assumption.
  - intros x y z Hin. rewrite <- Emid, sixvol_affine, (rigid_det A Hrig Hdet), Rmult_1_l. apply ytri_sixvol; assumption.
  - lra.
  - exact c0.
  - exact c6.
  - split; assumption.
  - apply Req_le. unfold w. field. repeat split; lra.
  - intros q Hq. destruct (linear_surj A (vreal src) q Hrig Hdet) as ((x & y & z & []) & ->). pose proof (In1 _ Hq) as Hq'.
    assert (B : 0 <= z <= l /\ x * x + y * y <= r * r).
    { exact (cylinder_inside na Hna r l Hr Hl x y z Hq'). }
    rewrite <- Emid, (rigid_shift A (vreal src) (proj1 HA)). apply round_reach; [exact Hr|exact Hl|apply B|apply B].
  - split.
    + intros q Hq. apply I1. destruct (linear_surj A (vreal src) q Hrig Hdet) as ((x & y & z & []) & ->).
      apply Loc in Hq; [|apply Rmult_le_pos; lra]. intros u v w' Hin. rewrite sixvol_affine, (rigid_det A Hrig Hdet), Rmult_1_l.
      apply (cylinder_inner_side na Hna _ _ Hr Hl); assumption.
    + intros q Hq0. pose proof (I2 q Hq0) as Hq. destruct (linear_surj A (vreal src) (toward mid w q) Hrig Hdet) as ((x & y & z & []) & Eq). rewrite Eq in Hq |- *.
      apply Loc; [lra|]. apply (cylinder_inside na Hna r _ Hr Hl). apply In1. exact Hq.
Qed.
Print Assumptions C89_cylinder.

(** The hypotheses are met in the cases of C68 and C70 (16 by 32 points on a sphere of
    radius 2; 32 points on rims of radius 2, four apart), and the factors are close
    to 1. *)
Example C89_example :
  (INR 16 * INR 16 * INR 32 <= bpow radix2 27 /\
   let r := B2R (s_radius csphere : b64) in bpow radix2 (-300) <= r <= bpow radix2 900 /\
     bpow radix2 (-28) * (INR 16 * INR 16 * INR 32) <= bpow radix2 (-14)) /\
  let r := B2R (b64_ofZ 2) in let l := rdist (vreal (g_target caxis : vec b64 3)) (vreal (g_source caxis : vec b64 3)) in
  let c := 150 * (bpow radix2 (-52) * (r + l)) + 10 * bpow radix2 (-340) + 4 * (uround 53 * 4) + 0 * (1 + 3 * (r + l)) in
  INR 32 * (2 * c + 0 + bpow radix2 (-340)) <= r /\ 2 * (2 * c + 0 + bpow radix2 (-340)) <= l /\
  96 * ((r + l) * (r + l)) * c * INR 32 / (r * r * l) <= / 100.
Proof.
  destruct (b64_small 1 ltac:(lia)) as (F1 & E1). destruct (b64_small 2 ltac:(lia)) as (F2 & E2).
  destruct (b64_small 3 ltac:(lia)) as (F3 & E3). destruct (b64_small 7 ltac:(lia)) as (F7 & E7).
  split.
  { split; [cbn; lra|]. intros r. assert (Er : r = 2) by exact E2. rewrite Er. split; [split; change 2 with (bpow radix2 1); apply bpow_le; lia|].
    cbn. lra. }
  intros r l. assert (Er : r = 2) by exact E2.
  assert (Vs : vreal (g_source caxis : vec b64 3) = (1, (2, (3, tt)))).
  { transitivity (B2R (b64_ofZ 1), (B2R (b64_ofZ 2), (B2R (b64_ofZ 3), tt))); [reflexivity|]. rewrite E1, E2, E3. reflexivity. }
  assert (Vt : vreal (g_target caxis : vec b64 3) = (1, (2, (7, tt)))).
  { transitivity (B2R (b64_ofZ 1), (B2R (b64_ofZ 2), (B2R (b64_ofZ 7), tt))); [reflexivity|]. rewrite E1, E2, E7. reflexivity. }
  assert (El : l = 4).
  { unfold l, rdist, rnorm. rewrite Vs, Vt. cbn. replace ((1 - 1) * (1 - 1) + ((2 - 2) * (2 - 2) + ((7 - 3) * (7 - 3) + 0))) with (4 * 4) by ring.
    apply sqrt_square. lra. }
  rewrite Er, El. assert (E32 : INR 32 = 32) by (cbn; ring). rewrite E32. intros c.
  assert (d9 : bpow radix2 (-52) <= bpow radix2 (-40)) by (apply bpow_le; lia). assert (d20 : 1000000000000 * bpow radix2 (-40) <= 1) by (cbn; lra).
  assert (u9 : uround 53 <= bpow radix2 (-40)) by (apply bpow_le; lia).
  assert (k9 : bpow radix2 (-340) <= bpow radix2 (-40)) by (apply bpow_le; lia).
  split; [unfold c; lra|]. split; [unfold c; lra|]. unfold c. lra.
Qed.
