(** * Property theorems: the volume of tessellations in floating point (C81) *)

From Coq Require Import List Arith Bool Lia Permutation ZArith Reals Lra.
From Flocq Require Import Core BinarySingleNaN.
From Verif Require Import Scalar Linal Result SpecReal VecR VecLemmas ModelKdTree SpecKdTree SpecTransform SpecIEEE SpecFloatErr SpecFloatTess SpecFloatOut SpecFloatVolume
  ModelShapes ModelTransform ModelMesh SpecMesh ModelTess SpecTess ProofTransform ProofTessComb ProofTessConn ProofTessMesh ProofTessSphere ProofTessRound ProofTess ProofVolume ProofConvex
  ProofRound ProofIEEE ProofFloatErr ProofFloatDist ProofFloatTrig ProofTessSafe ProofMeshIEEE ProofFloatTess ProofFloatRound ProofFloatOut ProofFloatVolume PropMeshIEEE PropFloatTess PropFloatRound PropFloatOut.
Import ListNotations.
Local Open Scope R_scope.

(** the exact volumes and how they compare with the curved shapes (as in C62) *)
Lemma sphere_ball np na r : (2 <= np)%nat -> (3 <= na)%nat -> 0 < r ->
  let d := 2 * PI / INR na in let e := PI / INR np in let ball := 4 / 3 * PI * (r * r * r) in
  (1 - d * d / 6) * (1 - e * e / 4) * ball <= INR na / 3 * sin d * (1 + cos e) * (r * r * r) < ball.
Proof.
  intros Hp Ha Hr d e ball.
  destruct (ngon_bounds na Ha) as ((B1 & B2) & B3 & B4). fold d in B1, B2, B3, B4.
  destruct (polar_bounds np Hp) as ((P1 & P2) & P3 & P4). fold e in P1, P2, P3, P4.
  assert (R3 : 0 < r * r * r / 3) by (assert (0 < r * r * r) by (repeat apply Rmult_lt_0_compat; assumption); lra).
  pose proof PI_RGT_0 as P0. unfold ball. split.
  - replace (_ * (4 / 3 * PI * (r * r * r))) with ((r * r * r / 3) * ((2 * PI * (1 - d * d / 6)) * (2 - e * e / 2))) by field.
    replace (INR na / 3 * _ * _ * _) with ((r * r * r / 3) * ((INR na * sin d) * (1 + cos e))) by field.
    apply Rmult_le_compat_l; [lra|]. apply Rmult_le_compat; try lra. apply Rmult_le_pos; lra.
  - replace (4 / 3 * PI * (r * r * r)) with ((r * r * r / 3) * (2 * PI * 2)) by field.
    replace (INR na / 3 * _ * _ * _) with ((r * r * r / 3) * ((INR na * sin d) * (1 + cos e))) by field.
    apply Rmult_lt_compat_l; [lra|]. apply Rmult_gt_0_lt_compat; lra.
Qed.
Lemma prism_full na r l : (3 <= na)%nat -> 0 < r -> 0 < l ->
  let d := 2 * PI / INR na in (1 - d * d / 6) * (PI * (r * r) * l) <= INR na / 2 * sin d * (r * r) * l < PI * (r * r) * l.
Proof.
  intros Ha Hr Hl d. destruct (ngon_bounds na Ha) as ((B1 & B2) & B3 & B4). fold d in B1, B2, B3, B4.
  assert (Q : 0 < r * r * l / 2) by (assert (0 < r * r * l) by (repeat apply Rmult_lt_0_compat; assumption); lra).
  replace (INR na / 2 * _ * _ * _) with ((r * r * l / 2) * (INR na * sin d)) by field.
  replace (PI * (r * r) * l) with ((r * r * l / 2) * (2 * PI)) by field. split.
  - replace ((1 - d * d / 6) * _) with ((r * r * l / 2) * (2 * PI * (1 - d * d / 6))) by field. apply Rmult_le_compat_l; lra.
  - apply Rmult_lt_compat_l; lra.
Qed.

(** ** C81: the sphere.  The hypotheses are those of C68; [a] is the point the volume is
    measured from. *)
Theorem C81_sphere :
  forall p e Hp He, (2 < p)%Z -> forall f g h pi,
  let S := IEEE p e Hp He f g h pi in
  forall (L : Linal S) W meq dbg self SZ (k : Z) (np na : nat) (o0 : point S) (s : sphere S) (d t M : R),
    (2 <= np)%nat -> (3 <= na)%nat -> (6 * na * (np - 1) < W)%nat -> meq hidentity hidentity = true ->
    trig_accurate d f g pi -> equal_within L t -> (3 - e - p <= 2 * k)%Z ->
    let o := s_origin s : vec (binary_float p e) 3 in let r := B2R (s_radius s : binary_float p e) in
    finite_pt o -> (forall i, (i < 3)%nat -> Rabs (fval i o) <= M) -> M <= bpow radix2 (e - 2) ->
    is_finite (s_radius s : binary_float p e) = true -> 0 < r <= bpow radix2 (e - 2) ->
    let c := 64 * (d * r) + uround p * M + t in
    INR np * INR na * (c + bpow radix2 k) <= r ->
    let az := 2 * PI / INR na in let po := PI / INR np in
    let ball := 4 / 3 * PI * (r * r * r) in
    let err := 3 * (INR np * INR na) * (r * r) * c in
    exists m, mb_sphere L W meq dbg self SZ np na o0 s = Ok m /\ forall a,
      Rabs (float_volume a m - INR na / 3 * sin az * (1 + cos po) * (r * r * r)) <= err /\
      (1 - az * az / 6) * (1 - po * po / 4) * ball - err <= float_volume a m <= ball + err.
Proof.
  intros p e Hp He H2 f g h pi S L W meq dbg self SZ k np na o0 s d t M Hnp Hna HW Hid Ht HL Hk o r Fo HoM HM Fr (Hr & Hre) c Hsep az po ball err.
  destruct (sphere_setup p e Hp He H2 f g h pi L W meq k np na s d t M Hnp Hna HW Hid Ht HL Hk Fo HoM HM Fr (conj Hr Hre) Hsep) as (Ep & Hnd & Hs & Hv & Hc & _).
  destruct (sphere_built p e Hp He H2 f g h pi L W meq dbg self SZ k np na o0 s Hnp Hna HW Hid Hnd Hs Hv) as (m & Em & _ & pos & Hpos & Hw).
  exists m. split; [exact Em|]. intros a.
  pose proof (@u_pos p) as Hu. pose proof (ta_round _ _ _ _ Ht) as Hud. pose proof (ew_slack _ _ HL) as t0. pose proof (bpow_gt_0 radix2 k) as k0.
  assert (P : 2 <= INR np) by exact (INR_p np Hnp). assert (A : 3 <= INR na) by exact (INR_a na Hna).
  assert (M0 : 0 <= M) by (eapply Rle_trans; [apply Rabs_pos|apply (HoM 0%nat); lia]).
  assert (c0 : 0 <= c).
  { assert (0 <= uround p * M) by (apply Rmult_le_pos; lra). assert (0 <= d * r) by (apply Rmult_le_pos; lra). unfold c. lra. }
  assert (N6 : 6 <= INR np * INR na) by (assert (2 * 3 <= INR np * INR na) by (apply Rmult_le_compat; lra); lra).
  assert (c6 : 6 * c <= r).
  { eapply Rle_trans; [|exact Hsep]. apply Rmult_le_compat; lra. }
  assert (Hps : forall v, In v (svs np na) -> pos v = fpos f g h pi L np na s v).
  { apply map_eq_in. exact (eq_trans Hpos Ep). }
  assert (Hall : forall v, sv_ok np na v -> In v (svs np na)).
  { exact (svs_all np na). }
  assert (E : solid6 (spos np na (vreal o) r) (vreal o) (map (ctri np na) (ctags np na)) / 6 = INR na / 3 * sin az * (1 + cos po) * (r * r * r)).
  { rewrite (sphere_solid6 np na Hnp Hna). unfold az, po. field. }
  assert (K : Rabs (float_volume a m - INR na / 3 * sin az * (1 + cos po) * (r * r * r)) <= err).
  { rewrite <- E. eapply Rle_trans; [apply (float_volume_close f g h pi L self _ Hv (map (ctri np na) (ctags np na)) pos m (fun v => In v (svs np na)) (spos np na (vreal o) r) (vreal o) a r c (2 * na * (np - 1)))|].
    - rewrite map_length. rewrite ctags_length by assumption. lia.
    - exact (ctri_closed np na Hnp Hna).
    - exact Hw.
    - intros x y z Hin. destruct (corners_in _ _ (sphere_corner np na Hnp Hna) x y z Hin) as (A1 & A2 & A3). auto.
    - intros v Hin. exact (eq_ind _ (fun l => In (pos v) l) (in_map pos (svs np na) v Hin) _ Hpos).
    - intros v Hin. rewrite (Hps v Hin). exact (Hc v Hin).
    - intros v Hin. right. apply (spos_on_sphere np na (vreal o) r Hr). apply (spos_grid np na Hnp Hna). exists v. split; [exact (svs_ok np na v Hin)|reflexivity].
    - exact c6.
    - unfold err. replace (3 * (INR np * INR na) * (r * r) * c) with (3 / 2 * (2 * (INR np * INR na)) * (r * r) * c) by field.
      assert (rr : 0 <= r * r) by apply Rle_0_sqr. apply Rmult_le_compat_r; [exact c0|]. apply Rmult_le_compat_r; [exact rr|].
      apply Rmult_le_compat_l; [lra|]. rewrite !mult_INR, minus_INR by lia. cbn [INR].
      replace ((1 + 1) * INR na * (INR np - 1)) with (2 * (INR np * INR na) - 2 * INR na) by ring. lra. }
  split; [exact K|]. pose proof (sphere_ball np na r Hnp Hna Hr) as (B1 & B2). fold az po ball in B1, B2.
  apply Rabs_le_inv in K. lra.
Qed.
Print Assumptions C81_sphere.

(** In double precision, for a centre at most 2^20 radii away from the origin, the
    relative error is at most 2^-30 for each facet. *)
Corollary C81_sphere_double :
  forall f g h pi, let S := B64 f g h pi in
  forall (L : Linal S) W meq dbg self SZ (np na : nat) (o0 : point S) (s : sphere S),
    (2 <= np)%nat -> (3 <= na)%nat -> INR np * INR na <= bpow radix2 30 -> (6 * na * (np - 1) < W)%nat -> meq hidentity hidentity = true ->
    trig_accurate (bpow radix2 (-52)) f g pi -> equal_within L 0 ->
    let o := s_origin s : vec b64 3 in let r := B2R (s_radius s : b64) in
    finite_pt o -> is_finite (s_radius s : b64) = true -> bpow radix2 (-300) <= r <= bpow radix2 900 ->
    (forall i, (i < 3)%nat -> Rabs (fval i o) <= bpow radix2 20 * r) ->
    let az := 2 * PI / INR na in let po := PI / INR np in
    let ball := 4 / 3 * PI * (r * r * r) in let err := bpow radix2 (-30) * (INR np * INR na) * (r * r * r) in
    exists m, mb_sphere L W meq dbg self SZ np na o0 s = Ok m /\ forall a,
      Rabs (float_volume a m - INR na / 3 * sin az * (1 + cos po) * (r * r * r)) <= err /\
      (1 - az * az / 6) * (1 - po * po / 4) * ball - err <= float_volume a m <= ball + err.
Proof.
  intros f g h pi S L W meq dbg self SZ np na o0 s Hnp Hna HN HW Hid Ht HL o r Fo Fr (Hr1 & Hr2) Ho az po ball err.
  pose proof (bpow_gt_0 radix2 (-300)) as B0. pose proof (bpow_gt_0 radix2 (-52)) as B1. pose proof (bpow_gt_0 radix2 20) as B2. pose proof (bpow_gt_0 radix2 (-34)) as B34.
  assert (r0 : 0 < r) by lra.
  assert (E1 : bpow radix2 (-52) = bpow radix2 (-53) * 2) by (change 2 with (bpow radix2 1); rewrite <- bpow_plus; reflexivity).
  assert (E2 : bpow radix2 (-53) * bpow radix2 20 = bpow radix2 (-33)) by (rewrite <- bpow_plus; reflexivity).
  assert (E3 : 128 * bpow radix2 (-53) = bpow radix2 (-46)) by (change 128 with (bpow radix2 7); rewrite <- bpow_plus; reflexivity).
  assert (E4 : bpow radix2 (-46) <= bpow radix2 (-34)) by (apply bpow_le; lia).
  assert (E5 : bpow radix2 (-33) = 2 * bpow radix2 (-34)) by (change 2 with (bpow radix2 1); rewrite <- bpow_plus; reflexivity).
  assert (E6 : bpow radix2 (-32) = 4 * bpow radix2 (-34)) by (change 4 with (bpow radix2 2); rewrite <- bpow_plus; reflexivity).
  assert (E8 : bpow radix2 (-30) = 16 * bpow radix2 (-34)) by (change 16 with (bpow radix2 4); rewrite <- bpow_plus; reflexivity).
  assert (E7 : bpow radix2 (-340) <= bpow radix2 (-34) * r).
  { replace (bpow radix2 (-340)) with (bpow radix2 (-40) * bpow radix2 (-300)) by (rewrite <- bpow_plus; reflexivity).
    apply Rmult_le_compat; try apply bpow_ge_0; [apply bpow_le; lia|exact Hr1]. }
  assert (Hm : bpow radix2 20 * r <= bpow radix2 (1024 - 2)).
  { apply Rle_trans with (bpow radix2 20 * bpow radix2 900); [apply Rmult_le_compat_l; lra|]. rewrite <- bpow_plus. apply bpow_le. lia. }
  assert (Hre : r <= bpow radix2 (1024 - 2)) by (eapply Rle_trans; [exact Hr2|]; apply bpow_le; lia).
  assert (Hsum : 64 * (bpow radix2 (-52) * r) + uround 53 * (bpow radix2 20 * r) + 0 <= 3 * bpow radix2 (-34) * r).
  { unfold uround. change (- (53))%Z with (-53)%Z. replace (64 * (bpow radix2 (-52) * r)) with (bpow radix2 (-46) * r) by (rewrite <- E3, E1; ring).
    rewrite <- Rmult_assoc, E2, E5. assert (bpow radix2 (-46) * r <= bpow radix2 (-34) * r) by (apply Rmult_le_compat_r; lra). lra. }
  assert (N0 : 0 <= INR np * INR na) by (apply Rmult_le_pos; apply pos_INR).
  destruct (C81_sphere 53 1024 prec53 prec_emax64 eq_refl f g h pi L W meq dbg self SZ (-340) np na o0 s (bpow radix2 (-52)) 0 (bpow radix2 20 * r)
    Hnp Hna HW Hid Ht HL ltac:(lia) Fo Ho Hm Fr (conj r0 Hre)) as (m & Em & V).
  - apply Rle_trans with (bpow radix2 30 * (4 * bpow radix2 (-34) * r)).
    + apply Rmult_le_compat; [exact N0| |exact HN|].
      * assert (0 <= uround 53 * (bpow radix2 20 * r)) by (apply Rmult_le_pos; [apply bpow_ge_0|apply Rmult_le_pos; lra]).
        assert (0 <= bpow radix2 (-52) * r) by (apply Rmult_le_pos; lra). pose proof (bpow_gt_0 radix2 (-340)). match goal with |- context [B2R ?x] => change (B2R x) with r end. lra.
      * match goal with |- context [B2R ?x] => change (B2R x) with r end. lra.
    + rewrite <- E6, <- Rmult_assoc, <- bpow_plus. change (bpow radix2 (30 + -32)) with (/ 4).
      match goal with |- _ <= B2R ?x => change (B2R x) with r end. lra.
  - exists m. split; [exact Em|]. intros a. specialize (V a). cbv zeta in V. change (B2R (s_radius s : b64)) with r in V. fold az po ball in V.
    set (c := 64 * (bpow radix2 (-52) * r) + uround 53 * (bpow radix2 20 * r) + 0) in *.
    assert (Q : 3 * (INR np * INR na) * (r * r) * c <= err).
    { apply Rle_trans with (3 * (INR np * INR na) * (r * r) * (3 * bpow radix2 (-34) * r)).
      - apply Rmult_le_compat_l; [|exact Hsum]. apply Rmult_le_pos; [lra|]. apply Rle_0_sqr.
      - unfold err. rewrite E8. assert (0 <= bpow radix2 (-34) * (INR np * INR na) * (r * r * r)); [|lra].
        apply Rmult_le_pos; [apply Rmult_le_pos; lra|]. apply Rlt_le. repeat apply Rmult_lt_0_compat; exact r0. }
    destruct V as (V1 & V2 & V3). split; [eapply Rle_trans; [exact V1|exact Q]|]. lra.
Qed.
Print Assumptions C81_sphere_double.

(** ** C81: cones and cylinders.  The hypotheses are those of C70. *)
Theorem C81_cone :
  forall p e Hp He, (2 < p)%Z -> forall f g h pi,
  let S := IEEE p e Hp He f g h pi in
  forall (L : Linal S) W meq dbg self SZ (rot_align : hvec S -> hvec S -> hmat S) (k : Z) (na : nat) (co : cone S) (A : vec (vec R 3) 3) (d t M : R),
    (3 <= na)%nat -> (6 * na < W)%nat ->
    trig_accurate d f g pi -> equal_within L t -> identity_within meq t -> (3 - e - p <= 2 * k)%Z ->
    let seg := co_segment co in
    let src := g_source seg : vec (binary_float p e) 3 in let tgt := g_target seg : vec (binary_float p e) 3 in
    let r := B2R (co_radius co : binary_float p e) in let l := rdist (vreal tgt) (vreal src) in
    in_reach tgt src -> (forall i, (i < 3)%nat -> Rabs (fval i src) <= M) -> M <= bpow radix2 (e - 4) ->
    is_finite (co_radius co : binary_float p e) = true -> 0 < r -> r + l <= bpow radix2 (e - 4) ->
    rotation_onto A (rdirection (rsub (vreal tgt) (vreal src))) ->
    rotation_within d A (rot_align (mk4 s0 s0 s1 s1) (to_hvec (segment_direction seg))) ->
    (dbg = true -> isZero L (leps L) (segment_length seg) = false /\ isEq L (leps L) (vlength (segment_direction seg)) s1 = true) ->
    let c := 150 * (d * (r + l)) + 10 * bpow radix2 k + 4 * (uround p * M) + t * (1 + 3 * (r + l)) in
    INR na * (2 * c + t + bpow radix2 k) <= r -> 2 * (2 * c + t + bpow radix2 k) <= l ->
    let az := 2 * PI / INR na in let full := PI * (r * r) * l / 3 in let err := 3 * INR na * ((r + l) * (r + l)) * c in
    exists m, mb_cone L W meq dbg self SZ rot_align na co = Ok (Some m) /\ forall a,
      Rabs (float_volume a m - INR na / 2 * sin az * (r * r) * l / 3) <= err /\
      (1 - az * az / 6) * full - err <= float_volume a m <= full + err.
Proof.
  intros p e Hp He H2 f g h pi S L W meq dbg self SZ rot_align k na co A d t M Hna HW Ht HL Hm Hk seg src tgt r l HR HsM HM Fr Hr Hre HA HX Hdbg c Hs1 Hs2 az full err.
  destruct (cone_setup p e Hp He H2 f g h pi L W meq rot_align k na co A d t M Hna HW Ht HL Hm Hk HR HsM HM Fr Hr Hre HA HX Hs1 Hs2) as (fp & Ep & Hn & Hs & Hv & Hc & _ & Hl).
  destruct (cone_built p e Hp He H2 f g h pi L W meq dbg self SZ rot_align k na co Hna HW Hdbg Hn Hs Hv) as (m & Em & _ & pos & Hpos & Hw).
  exists m. split; [exact Em|]. intros a.
  assert (Hps : forall v, In v (kvs na) -> pos v = fp v) by (apply map_eq_in; exact (eq_trans Hpos Ep)).
  pose proof (ew_slack _ _ HL) as t0. pose proof (bpow_gt_0 radix2 k) as k0. pose proof (INR_a na Hna) as Ia.
  assert (l0 : 0 < l) by exact Hl.
  assert (c6 : 6 * c <= r + l).
  { destruct (Rle_or_lt c 0); [lra|]. assert (3 * (2 * c) <= INR na * (2 * c + t + bpow radix2 k)) by (apply Rmult_le_compat; lra). lra. }
  assert (E : solid6 (fun v => affine A (vreal src) (kpos na r l v)) (affine A (vreal src) (0, (0, (l / 2, tt)))) (map (ktri na) (ktags na)) / 6 = INR na / 2 * sin az * (r * r) * l / 3).
  { rewrite (solid6_apex _ _ (affine A (vreal src) rzero) _ (ktri_closed na Hna)), solid6_affine, (cone_solid6 na Hna), (rigid_det A (proj1 HA) (proj1 (proj2 HA))). unfold az. field. }
  assert (K : Rabs (float_volume a m - INR na / 2 * sin az * (r * r) * l / 3) <= err).
  { rewrite <- E. eapply Rle_trans; [apply (float_volume_close f g h pi L self _ Hv (map (ktri na) (ktags na)) pos m (fun v => In v (kvs na)) (fun v => affine A (vreal src) (kpos na r l v)) _ a (r + l) c (2 * na))|].
    - rewrite map_length. rewrite ktags_length. lia.
    - exact (ktri_closed na Hna).
    - exact Hw.
    - intros x y z Hin. destruct (corners_in _ _ (cone_corner na Hna) x y z Hin) as (A1 & A2 & A3). repeat split; apply kvs_all; assumption.
    - intros v Hin. exact (eq_ind _ (fun l => In (pos v) l) (in_map pos (kvs na) v Hin) _ Hpos).
    - intros v Hin. rewrite (Hps v Hin). exact (Hc v Hin).
    - intros v Hin. rewrite (rigid_shift A (vreal src) (proj1 HA)). apply kpos_dist; assumption.
    - exact c6.
    - unfold err. apply Req_le. rewrite mult_INR. cbn [INR]. field. }
  split; [exact K|]. pose proof (prism_full na r l Hna Hr Hl) as (B1 & B2). fold az in B1, B2. apply Rabs_le_inv in K. unfold full. lra.
Qed.
Print Assumptions C81_cone.

Theorem C81_cylinder :
  forall p e Hp He, (2 < p)%Z -> forall f g h pi,
  let S := IEEE p e Hp He f g h pi in
  forall (L : Linal S) W meq dbg self SZ (rot_align : hvec S -> hvec S -> hmat S) (k : Z) (na : nat) (cy : cylinder S) (A : vec (vec R 3) 3) (d t M : R),
    (3 <= na)%nat -> (12 * na < W)%nat ->
    trig_accurate d f g pi -> equal_within L t -> identity_within meq t -> (3 - e - p <= 2 * k)%Z ->
    let seg := cy_segment cy in
    let src := g_source seg : vec (binary_float p e) 3 in let tgt := g_target seg : vec (binary_float p e) 3 in
    let r := B2R (cy_radius cy : binary_float p e) in let l := rdist (vreal tgt) (vreal src) in
    in_reach tgt src -> (forall i, (i < 3)%nat -> Rabs (fval i src) <= M) -> M <= bpow radix2 (e - 4) ->
    is_finite (cy_radius cy : binary_float p e) = true -> 0 < r -> r + l <= bpow radix2 (e - 4) ->
    rotation_onto A (rdirection (rsub (vreal tgt) (vreal src))) ->
    rotation_within d A (rot_align (mk4 s0 s0 s1 s1) (to_hvec (segment_direction seg))) ->
    let c := 150 * (d * (r + l)) + 10 * bpow radix2 k + 4 * (uround p * M) + t * (1 + 3 * (r + l)) in
    INR na * (2 * c + t + bpow radix2 k) <= r -> 2 * (2 * c + t + bpow radix2 k) <= l ->
    let az := 2 * PI / INR na in let full := PI * (r * r) * l in let err := 6 * INR na * ((r + l) * (r + l)) * c in
    exists m, mb_cylinder L W meq dbg self SZ rot_align na cy = Ok (Some m) /\ forall a,
      Rabs (float_volume a m - INR na / 2 * sin az * (r * r) * l) <= err /\
      (1 - az * az / 6) * full - err <= float_volume a m <= full + err.
Proof.
  intros p e Hp He H2 f g h pi S L W meq dbg self SZ rot_align k na cy A d t M Hna HW Ht HL Hm Hk seg src tgt r l HR HsM HM Fr Hr Hre HA HX c Hs1 Hs2 az full err.
  destruct (cylinder_setup p e Hp He H2 f g h pi L W meq rot_align k na cy A d t M Hna HW Ht HL Hm Hk HR HsM HM Fr Hr Hre HA HX Hs1 Hs2) as (fp & Ep & Hn & Hs & Hv & Hc & _ & Hl).
  destruct (cylinder_built p e Hp He H2 f g h pi L W meq dbg self SZ rot_align k na cy Hna HW Hn Hs Hv) as (m & Em & _ & pos & Hpos & Hw).
  exists m. split; [exact Em|]. intros a.
  assert (Hps : forall v, In v (yvs na) -> pos v = fp v) by (apply map_eq_in; exact (eq_trans Hpos Ep)).
  pose proof (ew_slack _ _ HL) as t0. pose proof (bpow_gt_0 radix2 k) as k0. pose proof (INR_a na Hna) as Ia.
  assert (l0 : 0 < l) by exact Hl.
  assert (c6 : 6 * c <= r + l).
  { destruct (Rle_or_lt c 0); [lra|]. assert (3 * (2 * c) <= INR na * (2 * c + t + bpow radix2 k)) by (apply Rmult_le_compat; lra). lra. }
  assert (E : solid6 (fun v => affine A (vreal src) (ypos na r l v)) (affine A (vreal src) (0, (0, (l / 2, tt)))) (map (ytri na) (ytags na)) / 6 = INR na / 2 * sin az * (r * r) * l).
  { rewrite (solid6_apex _ _ (affine A (vreal src) rzero) _ (ytri_closed na Hna)), solid6_affine, (cylinder_solid6 na Hna), (rigid_det A (proj1 HA) (proj1 (proj2 HA))). unfold az. field. }
  assert (K : Rabs (float_volume a m - INR na / 2 * sin az * (r * r) * l) <= err).
  { rewrite <- E. eapply Rle_trans; [apply (float_volume_close f g h pi L self _ Hv (map (ytri na) (ytags na)) pos m (fun v => In v (yvs na)) (fun v => affine A (vreal src) (ypos na r l v)) _ a (r + l) c (4 * na))|].
    - rewrite map_length. rewrite ytags_length. lia.
    - exact (ytri_closed na Hna).
    - exact Hw.
    - intros x y z Hin. destruct (corners_in _ _ (cyl_corner na Hna) x y z Hin) as (A1 & A2 & A3). repeat split; apply yvs_all; assumption.
    - intros v Hin. exact (eq_ind _ (fun l => In (pos v) l) (in_map pos (yvs na) v Hin) _ Hpos).
    - intros v Hin. rewrite (Hps v Hin). exact (Hc v Hin).
    - intros v Hin. rewrite (rigid_shift A (vreal src) (proj1 HA)). apply ypos_dist; assumption.
    - exact c6.
    - unfold err. apply Req_le. rewrite mult_INR. cbn [INR]. field. }
  split; [exact K|]. pose proof (prism_full na r l Hna Hr Hl) as (B1 & B2). fold az in B1, B2. apply Rabs_le_inv in K. unfold full. lra.
Qed.
Print Assumptions C81_cylinder.

(** The hypotheses are met in the cases of C68 and C70 (16 by 32 points on a sphere of
    radius 2; 32 points on rims of radius 2, four apart), and the errors are small
    against the volumes. *)
Example C81_example :
  (INR 16 * INR 32 <= bpow radix2 30 /\
   let r := B2R (s_radius csphere : b64) in bpow radix2 (-300) <= r <= bpow radix2 900 /\
     bpow radix2 (-30) * (INR 16 * INR 32) * (r * r * r) <= bpow radix2 (-20) * (4 / 3 * PI * (r * r * r))) /\
  let r := B2R (b64_ofZ 2) in let l := rdist (vreal (g_target caxis : vec b64 3)) (vreal (g_source caxis : vec b64 3)) in
  let c := 150 * (bpow radix2 (-52) * (r + l)) + 10 * bpow radix2 (-340) + 4 * (uround 53 * 4) + 0 * (1 + 3 * (r + l)) in
  INR 32 * (2 * c + 0 + bpow radix2 (-340)) <= r /\ 2 * (2 * c + 0 + bpow radix2 (-340)) <= l /\
  6 * INR 32 * ((r + l) * (r + l)) * c <= / 100 * (PI * (r * r) * l).
Proof.
  destruct (b64_small 1 ltac:(lia)) as (F1 & E1). destruct (b64_small 2 ltac:(lia)) as (F2 & E2).
  destruct (b64_small 3 ltac:(lia)) as (F3 & E3). destruct (b64_small 7 ltac:(lia)) as (F7 & E7).
  pose proof PI2_1 as P1. pose proof PI_4 as P4.
  split.
  { split; [cbn; lra|]. intros r. assert (Er : r = 2) by exact E2. rewrite Er. split; [split; change 2 with (bpow radix2 1); apply bpow_le; lia|].
    cbn. lra. }
  intros r l. assert (Er : r = 2) by exact E2.
  assert (Vs : vreal (g_source caxis : vec b64 3) = (1, (2, (3, tt)))).
  { transitivity (B2R (b64_ofZ 1), (B2R (b64_ofZ 2), (B2R (b64_ofZ 3), tt))); [reflexivity|]. rewrite E1, E2, E3. reflexivity. }
  assert (Vt : vreal (g_target caxis : vec b64 3) = (1, (2, (7, tt)))).
  { transitivity (B2R (b64_ofZ 1), (B2R (b64_ofZ 2), (B2R (b64_ofZ 7), tt))); [reflexivity|]. rewrite E1, E2, E7. reflexivity. }
  assert (El : l = 4).
  { unfold l, rdist, rnorm. rewrite Vs, Vt. cbn. replace ((1 - 1) * (1 - 1) + ((2 - 2) * (2 - 2) + ((7 - 3) * (7 - 3) + 0))) with (4 * 4) by ring.
    apply sqrt_square. lra. }
  rewrite Er, El. assert (E32 : INR 32 = 32) by (cbn; ring). rewrite E32. intros c.
  assert (d9 : bpow radix2 (-52) <= bpow radix2 (-30)) by (apply bpow_le; lia). assert (d20 : 1000000000 * bpow radix2 (-30) <= 1) by (cbn; lra).
  assert (u9 : uround 53 <= bpow radix2 (-30)) by (apply bpow_le; lia).
  assert (k9 : bpow radix2 (-340) <= bpow radix2 (-30)) by (apply bpow_le; lia).
  split; [unfold c; lra|]. split; [unfold c; lra|]. unfold c. lra.
Qed.
