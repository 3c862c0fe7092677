(** * Property theorems: the area of tessellations in floating point (C88) *)

From Coq Require Import List Arith Bool Lia Permutation ZArith Reals Lra Psatz.
From Flocq Require Import Core BinarySingleNaN.
From Verif Require Import Scalar Linal Result SpecReal VecR VecLemmas ModelKdTree SpecKdTree SpecTransform SpecIEEE SpecFloatErr SpecFloatTess SpecFloatOut SpecFloatVolume SpecArea SpecFloatArea
  ModelShapes ModelTransform ModelMesh SpecMesh ModelTess SpecTess ProofTransform ProofTessComb ProofTessConn ProofTessMesh ProofTessSphere ProofTessRound ProofTess ProofVolume ProofArea ProofConvex
  ProofRound ProofIEEE ProofFloatErr ProofFloatDist ProofFloatTrig ProofTessSafe ProofMeshIEEE ProofFloatTess ProofFloatRound ProofFloatOut ProofFloatVolume ProofFloatArea PropArea PropMeshIEEE PropFloatTess PropFloatRound PropFloatOut PropFloatVolume.
Import ListNotations.
Local Open Scope R_scope.

(** the exact areas and how they compare with the curved shapes (as in C87) *)
Lemma sphere_shell np na r : (2 <= np)%nat -> (3 <= na)%nat -> 0 < r ->
  let d := 2 * PI / INR na in let e := PI / INR np in
  (1 - d * d / 6) * (1 - e * e / 8) * (4 * PI * (r * r)) <= 4 * INR na * sin (d / 2) * cos (d / 2) * cos (e / 2) * (r * r) /\
  4 * INR na * sin (d / 2) * cos (e / 2) * (r * r) < 4 * PI * (r * r).
Proof.
  intros Hp Ha Hr d e.
  destruct (chord_bounds na Ha) as (B1 & B2 & B3 & B4 & B5). fold d in B1, B2, B3, B4, B5.
  destruct (ngon_bounds na Ha) as (_ & _ & N4). fold d in N4.
  destruct (ProofArea.half_polar np Hp) as (E1 & _ & E2). fold e in E1, E2.
  pose proof PI_RGT_0 as P0. pose proof PI_4 as P4.
  assert (C1 : 1 - e * e / 8 <= cos (e / 2)) by (pose proof (cos_low (e / 2) ltac:(lra)); lra).
  assert (C2 : 0 < 1 - e * e / 8) by nra.
  assert (C3 : cos (e / 2) <= 1) by apply COS_bound.
  assert (R2 : 0 < r * r) by now apply Rmult_lt_0_compat. split.
  - replace ((1 - d * d / 6) * (1 - e * e / 8) * (4 * PI * (r * r))) with (4 * (r * r) * ((PI * (1 - d * d / 6)) * (1 - e * e / 8))) by ring.
    replace (4 * INR na * sin (d / 2) * cos (d / 2) * cos (e / 2) * (r * r)) with (4 * (r * r) * ((INR na * sin (d / 2) * cos (d / 2)) * cos (e / 2))) by ring.
    apply Rmult_le_compat_l; [lra|]. apply Rmult_le_compat; try lra. apply Rmult_le_pos; lra.
  - apply Rle_lt_trans with (4 * (r * r) * (INR na * sin (d / 2))).
    + replace (4 * INR na * sin (d / 2) * cos (e / 2) * (r * r)) with (4 * (r * r) * (INR na * sin (d / 2) * cos (e / 2))) by ring.
      apply Rmult_le_compat_l; [lra|]. rewrite <- (Rmult_1_r (INR na * sin (d / 2))) at 2. apply Rmult_le_compat_l; lra.
    + replace (4 * PI * (r * r)) with (4 * (r * r) * PI) by ring. apply Rmult_lt_compat_l; lra.
Qed.
Lemma cone_shell a r h : (3 <= a)%nat -> 0 < r -> 0 < h ->
  let d := 2 * PI / INR a in
  let full := PI * (r * r) + PI * r * sqrt (h * h + r * r) in
  (1 - d * d / 6) * full <= INR a / 2 * sin d * (r * r) + INR a * sin (d / 2) * r * sqrt (h * h + r * cos (d / 2) * (r * cos (d / 2))) < full.
Proof.
  intros Ha Hr Hl d full.
  destruct (chord_bounds a Ha) as (B1 & B2 & B3 & B4 & B5). fold d in B1, B2, B3, B4, B5.
  destruct (ngon_bounds a Ha) as ((N1 & N2) & N3 & N4). fold d in N1, N2, N3, N4. pose proof PI_RGT_0 as P0.
  assert (R2 : 0 < r * r) by now apply Rmult_lt_0_compat. assert (H2 : 0 < h * h) by now apply Rmult_lt_0_compat.
  set (c := cos (d / 2)) in *. set (x := sqrt (h * h + r * c * (r * c))) in *. set (y := sqrt (h * h + r * r)) in *.
  assert (C2 : 0 <= c * c <= 1) by nra.
  assert (Y0 : 0 < y) by (apply sqrt_lt_R0; lra).
  assert (XY : x <= y) by (apply sqrt_le_1_alt; nra).
  assert (YX : c * y <= x).
  { assert (Ec : c * y = sqrt (c * c * (h * h + r * r))) by (unfold y; rewrite sqrt_mult, sqrt_square by lra; reflexivity). rewrite Ec. apply sqrt_le_1_alt. nra. }
  unfold full. split.
  - rewrite Rmult_plus_distr_l. apply Rplus_le_compat.
    + replace (INR a / 2 * sin d * (r * r)) with (r * r / 2 * (INR a * sin d)) by field. replace ((1 - d * d / 6) * (PI * (r * r))) with (r * r / 2 * (2 * PI * (1 - d * d / 6))) by field. apply Rmult_le_compat_l; lra.
    + apply Rle_trans with (INR a * sin (d / 2) * r * (c * y)).
      * replace ((1 - d * d / 6) * (PI * r * y)) with (r * y * (PI * (1 - d * d / 6))) by ring. replace (INR a * sin (d / 2) * r * (c * y)) with (r * y * (INR a * sin (d / 2) * c)) by ring.
        apply Rmult_le_compat_l; [apply Rmult_le_pos; lra|exact B2].
      * apply Rmult_le_compat_l; [apply Rmult_le_pos; lra|exact YX].
  - apply Rplus_lt_compat.
    + replace (INR a / 2 * sin d * (r * r)) with (r * r / 2 * (INR a * sin d)) by field. replace (PI * (r * r)) with (r * r / 2 * (2 * PI)) by field. apply Rmult_lt_compat_l; lra.
    + apply Rle_lt_trans with (INR a * sin (d / 2) * r * y); [apply Rmult_le_compat_l; [apply Rmult_le_pos; lra|exact XY]|].
      apply Rmult_lt_compat_r; [exact Y0|]. apply Rmult_lt_compat_r; [exact Hr|exact B1].
Qed.
Lemma cylinder_shell a r h : (3 <= a)%nat -> 0 < r -> 0 < h ->
  let d := 2 * PI / INR a in
  let full := 2 * PI * (r * r) + 2 * PI * r * h in
  (1 - d * d / 6) * full <= INR a * sin d * (r * r) + 2 * INR a * sin (d / 2) * r * h < full.
Proof.
  intros Ha Hr Hl d full.
  destruct (chord_bounds a Ha) as (B1 & B2 & B3 & B4 & B5). fold d in B1, B2, B3, B4, B5.
  destruct (ngon_bounds a Ha) as ((N1 & N2) & N3 & N4). fold d in N1, N2, N3, N4. pose proof PI_RGT_0 as P0.
  assert (R2 : 0 < r * r) by now apply Rmult_lt_0_compat. assert (RH : 0 < r * h) by now apply Rmult_lt_0_compat.
  unfold full.
  replace (INR a * sin d * (r * r) + 2 * INR a * sin (d / 2) * r * h) with (r * r * (INR a * sin d) + 2 * (r * h) * (INR a * sin (d / 2))) by ring. split.
  - replace ((1 - d * d / 6) * (2 * PI * (r * r) + 2 * PI * r * h)) with (r * r * (2 * PI * (1 - d * d / 6)) + 2 * (r * h) * (PI * (1 - d * d / 6))) by ring.
    apply Rplus_le_compat; apply Rmult_le_compat_l; try lra. apply Rle_trans with (INR a * sin (d / 2) * cos (d / 2)); [exact B2|].
    rewrite <- (Rmult_1_r (INR a * sin (d / 2))) at 2. apply Rmult_le_compat_l; lra.
  - replace (2 * PI * (r * r) + 2 * PI * r * h) with (r * r * (2 * PI) + 2 * (r * h) * PI) by ring.
    apply Rplus_lt_compat; apply Rmult_lt_compat_l; lra.
Qed.

(** ** C88: the sphere.  The hypotheses are those of C68. *)
Theorem C88_sphere :
  forall p e Hp He, (2 < p)%Z -> forall f g h pi,
  let S := IEEE p e Hp He f g h pi in
  forall (L : Linal S) W meq dbg self SZ (k : Z) (np na : nat) (o0 : point S) (s : sphere S) (d t M : R),
    (2 <= np)%nat -> (3 <= na)%nat -> (6 * na * (np - 1) < W)%nat -> meq hidentity hidentity = true ->
    trig_accurate d f g pi -> equal_within L t -> (3 - e - p <= 2 * k)%Z ->
    let o := s_origin s : vec (binary_float p e) 3 in let r := B2R (s_radius s : binary_float p e) in
    finite_pt o -> (forall i, (i < 3)%nat -> Rabs (fval i o) <= M) -> M <= bpow radix2 (e - 2) ->
    is_finite (s_radius s : binary_float p e) = true -> 0 < r <= bpow radix2 (e - 2) ->
    let c := 64 * (d * r) + uround p * M + t in
    INR np * INR na * (c + bpow radix2 k) <= r ->
    let az := 2 * PI / INR na in let po := PI / INR np in
    let full := 4 * PI * (r * r) in
    let err := 20 * (INR np * INR na) * r * c in
    exists m, mb_sphere L W meq dbg self SZ np na o0 s = Ok m /\
      4 * INR na * sin (az / 2) * cos (az / 2) * cos (po / 2) * (r * r) - err <= float_area m <= 4 * INR na * sin (az / 2) * cos (po / 2) * (r * r) + err /\
      (1 - az * az / 6) * (1 - po * po / 8) * full - err <= float_area m <= full + err.
Proof.
  intros p e Hp He H2 f g h pi S L W meq dbg self SZ k np na o0 s d t M Hnp Hna HW Hid Ht HL Hk o r Fo HoM HM Fr (Hr & Hre) c Hsep az po full err.
  destruct (sphere_setup p e Hp He H2 f g h pi L W meq k np na s d t M Hnp Hna HW Hid Ht HL Hk Fo HoM HM Fr (conj Hr Hre) Hsep) as (Ep & Hnd & Hs & Hv & Hc & _).
  destruct (sphere_built p e Hp He H2 f g h pi L W meq dbg self SZ k np na o0 s Hnp Hna HW Hid Hnd Hs Hv) as (m & Em & _ & pos & Hpos & Hw).
  exists m. split; [exact Em|].
  pose proof (@u_pos p) as Hu. pose proof (ta_round _ _ _ _ Ht) as Hud. pose proof (ew_slack _ _ HL) as t0. pose proof (bpow_gt_0 radix2 k) as k0.
  assert (P : 2 <= INR np) by exact (INR_p np Hnp). assert (A : 3 <= INR na) by exact (INR_a na Hna).
  assert (M0 : 0 <= M) by (eapply Rle_trans; [apply Rabs_pos|apply (HoM 0%nat); lia]).
  assert (c0 : 0 <= c).
  { assert (0 <= uround p * M) by (apply Rmult_le_pos; lra). assert (0 <= d * r) by (apply Rmult_le_pos; lra). unfold c. lra. }
  assert (N6 : 6 <= INR np * INR na) by (assert (2 * 3 <= INR np * INR na) by (apply Rmult_le_compat; lra); lra).
  assert (c6 : 6 * c <= r).
  { eapply Rle_trans; [|exact Hsep]. apply Rmult_le_compat; lra. }
  assert (Hps : forall v, In v (svs np na) -> pos v = fpos f g h pi L np na s v).
  { apply map_eq_in. exact (eq_trans Hpos Ep). }
  assert (Hall : forall v, sv_ok np na v -> In v (svs np na)).
  { exact (svs_all np na). }
  assert (K : Rabs (float_area m - twice_area (spos np na (vreal o) r) (map (ctri np na) (ctags np na)) / 2) <= err).
  { eapply Rle_trans; [apply (float_area_close f g h pi L self _ Hv (map (ctri np na) (ctags np na)) pos m (fun v => In v (svs np na)) (spos np na (vreal o) r) (vreal o) r c (2 * na * (np - 1)))|].
    - rewrite map_length. rewrite ctags_length by assumption. lia.
    - exact Hw.
    - intros x y z Hin. destruct (corners_in _ _ (sphere_corner np na Hnp Hna) x y z Hin) as (A1 & A2 & A3). auto.
    - intros v Hin. exact (eq_ind _ (fun l => In (pos v) l) (in_map pos (svs np na) v Hin) _ Hpos).
    - intros v Hin. rewrite (Hps v Hin). exact (Hc v Hin).
    - intros v Hin. right. apply (spos_on_sphere np na (vreal o) r Hr). apply (spos_grid np na Hnp Hna). exists v. split; [exact (svs_ok np na v Hin)|reflexivity].
    - exact c6.
    - unfold err. replace (20 * (INR np * INR na) * r * c) with (10 * (2 * (INR np * INR na)) * r * c) by ring.
      apply Rmult_le_compat_r; [exact c0|]. apply Rmult_le_compat_r; [lra|].
      apply Rmult_le_compat_l; [lra|]. rewrite !mult_INR, minus_INR by lia. cbn [INR].
      replace ((1 + 1) * INR na * (INR np - 1)) with (2 * (INR np * INR na) - 2 * INR na) by ring. lra. }
  pose proof (sphere_twice np na Hnp Hna (vreal o) r Hr) as (T1 & T2). fold az po in T1, T2.
  set (T := twice_area _ _) in *. clearbody T.
  pose proof (sphere_shell np na r Hnp Hna Hr) as (B1 & B2). cbv zeta in B1, B2. fold az po full in B1, B2.
  apply Rabs_le_inv in K. split; lra.
Qed.
Print Assumptions C88_sphere.

(** In double precision, for a centre at most 2^20 radii away from the origin, the
    relative error is at most 2^-28 for each facet. *)
Corollary C88_sphere_double :
  forall f g h pi, let S := B64 f g h pi in
  forall (L : Linal S) W meq dbg self SZ (np na : nat) (o0 : point S) (s : sphere S),
    (2 <= np)%nat -> (3 <= na)%nat -> INR np * INR na <= bpow radix2 30 -> (6 * na * (np - 1) < W)%nat -> meq hidentity hidentity = true ->
    trig_accurate (bpow radix2 (-52)) f g pi -> equal_within L 0 ->
    let o := s_origin s : vec b64 3 in let r := B2R (s_radius s : b64) in
    finite_pt o -> is_finite (s_radius s : b64) = true -> bpow radix2 (-300) <= r <= bpow radix2 900 ->
    (forall i, (i < 3)%nat -> Rabs (fval i o) <= bpow radix2 20 * r) ->
    let az := 2 * PI / INR na in let po := PI / INR np in
    let full := 4 * PI * (r * r) in let err := bpow radix2 (-28) * (INR np * INR na) * (r * r) in
    exists m, mb_sphere L W meq dbg self SZ np na o0 s = Ok m /\
      4 * INR na * sin (az / 2) * cos (az / 2) * cos (po / 2) * (r * r) - err <= float_area m <= 4 * INR na * sin (az / 2) * cos (po / 2) * (r * r) + err /\
      (1 - az * az / 6) * (1 - po * po / 8) * full - err <= float_area m <= full + err.
Proof.
  intros f g h pi S L W meq dbg self SZ np na o0 s Hnp Hna HN HW Hid Ht HL o r Fo Fr (Hr1 & Hr2) Ho az po full err.
  pose proof (bpow_gt_0 radix2 (-300)) as B0. pose proof (bpow_gt_0 radix2 (-52)) as B1. pose proof (bpow_gt_0 radix2 20) as B2. pose proof (bpow_gt_0 radix2 (-34)) as B34.
  assert (r0 : 0 < r) by lra.
  assert (E1 : bpow radix2 (-52) = bpow radix2 (-53) * 2) by (change 2 with (bpow radix2 1); rewrite <- bpow_plus; reflexivity).
  assert (E2 : bpow radix2 (-53) * bpow radix2 20 = bpow radix2 (-33)) by (rewrite <- bpow_plus; reflexivity).
  assert (E3 : 128 * bpow radix2 (-53) = bpow radix2 (-46)) by (change 128 with (bpow radix2 7); rewrite <- bpow_plus; reflexivity).
  assert (E4 : bpow radix2 (-46) <= bpow radix2 (-34)) by (apply bpow_le; lia).
  assert (E5 : bpow radix2 (-33) = 2 * bpow radix2 (-34)) by (change 2 with (bpow radix2 1); rewrite <- bpow_plus; reflexivity).
  assert (E6 : bpow radix2 (-32) = 4 * bpow radix2 (-34)) by (change 4 with (bpow radix2 2); rewrite <- bpow_plus; reflexivity).
  assert (E8 : bpow radix2 (-28) = 64 * bpow radix2 (-34)) by (change 64 with (bpow radix2 6); rewrite <- bpow_plus; reflexivity).
  assert (E7 : bpow radix2 (-340) <= bpow radix2 (-34) * r).
  { replace (bpow radix2 (-340)) with (bpow radix2 (-40) * bpow radix2 (-300)) by (rewrite <- bpow_plus; reflexivity).
    apply Rmult_le_compat; try apply bpow_ge_0; [apply bpow_le; lia|exact Hr1]. }
  assert (Hm : bpow radix2 20 * r <= bpow radix2 (1024 - 2)).
  { apply Rle_trans with (bpow radix2 20 * bpow radix2 900); [apply Rmult_le_compat_l; lra|]. rewrite <- bpow_plus. apply bpow_le. lia. }
  assert (Hre : r <= bpow radix2 (1024 - 2)) by (eapply Rle_trans; [exact Hr2|]; apply bpow_le; lia).
  assert (Hsum : 64 * (bpow radix2 (-52) * r) + uround 53 * (bpow radix2 20 * r) + 0 <= 3 * bpow radix2 (-34) * r).
  { unfold uround. change (- (53))%Z with (-53)%Z. replace (64 * (bpow radix2 (-52) * r)) with (bpow radix2 (-46) * r) by (rewrite <- E3, E1; ring).
    rewrite <- Rmult_assoc, E2, E5. assert (bpow radix2 (-46) * r <= bpow radix2 (-34) * r) by (apply Rmult_le_compat_r; lra). lra. }
  assert (N0 : 0 <= INR np * INR na) by (apply Rmult_le_pos; apply pos_INR).
  destruct (C88_sphere 53 1024 prec53 prec_emax64 eq_refl f g h pi L W meq dbg self SZ (-340) np na o0 s (bpow radix2 (-52)) 0 (bpow radix2 20 * r)
    Hnp Hna HW Hid Ht HL ltac:(lia) Fo Ho Hm Fr (conj r0 Hre)) as (m & Em & V).
  - apply Rle_trans with (bpow radix2 30 * (4 * bpow radix2 (-34) * r)).
    + apply Rmult_le_compat; [exact N0| |exact HN|].
      * assert (0 <= uround 53 * (bpow radix2 20 * r)) by (apply Rmult_le_pos; [apply bpow_ge_0|apply Rmult_le_pos; lra]).
        assert (0 <= bpow radix2 (-52) * r) by (apply Rmult_le_pos; lra). pose proof (bpow_gt_0 radix2 (-340)). match goal with |- context [B2R ?x] => change (B2R x) with r end. lra.
      * match goal with |- context [B2R ?x] => change (B2R x) with r end. lra.
    + rewrite <- E6, <- Rmult_assoc, <- bpow_plus. change (bpow radix2 (30 + -32)) with (/ 4).
      match goal with |- _ <= B2R ?x => change (B2R x) with r end. lra.
  - exists m. split; [exact Em|]. cbv zeta in V. change (B2R (s_radius s : b64)) with r in V. fold az po full in V.
    set (c := 64 * (bpow radix2 (-52) * r) + uround 53 * (bpow radix2 20 * r) + 0) in *.
    assert (Q : 20 * (INR np * INR na) * r * c <= err).
    { apply Rle_trans with (20 * (INR np * INR na) * r * (3 * bpow radix2 (-34) * r)).
      - apply Rmult_le_compat_l; [|exact Hsum]. apply Rmult_le_pos; lra.
      - unfold err. rewrite E8. assert (0 <= bpow radix2 (-34) * (INR np * INR na) * (r * r)); [|lra].
        apply Rmult_le_pos; [apply Rmult_le_pos; lra|]. apply Rlt_le. repeat apply Rmult_lt_0_compat; exact r0. }
    destruct V as (V1 & V2). split; lra.
Qed.
Print Assumptions C88_sphere_double.

(** ** C88: cones and cylinders.  The hypotheses are those of C70. *)
Theorem C88_cone :
  forall p e Hp He, (2 < p)%Z -> forall f g h pi,
  let S := IEEE p e Hp He f g h pi in
  forall (L : Linal S) W meq dbg self SZ (rot_align : hvec S -> hvec S -> hmat S) (k : Z) (na : nat) (co : cone S) (A : vec (vec R 3) 3) (d t M : R),
    (3 <= na)%nat -> (6 * na < W)%nat ->
    trig_accurate d f g pi -> equal_within L t -> identity_within meq t -> (3 - e - p <= 2 * k)%Z ->
    let seg := co_segment co in
    let src := g_source seg : vec (binary_float p e) 3 in let tgt := g_target seg : vec (binary_float p e) 3 in
    let r := B2R (co_radius co : binary_float p e) in let l := rdist (vreal tgt) (vreal src) in
    in_reach tgt src -> (forall i, (i < 3)%nat -> Rabs (fval i src) <= M) -> M <= bpow radix2 (e - 4) ->
    is_finite (co_radius co : binary_float p e) = true -> 0 < r -> r + l <= bpow radix2 (e - 4) ->
    rotation_onto A (rdirection (rsub (vreal tgt) (vreal src))) ->
    rotation_within d A (rot_align (mk4 s0 s0 s1 s1) (to_hvec (segment_direction seg))) ->
    (dbg = true -> isZero L (leps L) (segment_length seg) = false /\ isEq L (leps L) (vlength (segment_direction seg)) s1 = true) ->
    let c := 150 * (d * (r + l)) + 10 * bpow radix2 k + 4 * (uround p * M) + t * (1 + 3 * (r + l)) in
    INR na * (2 * c + t + bpow radix2 k) <= r -> 2 * (2 * c + t + bpow radix2 k) <= l ->
    let az := 2 * PI / INR na in let full := PI * (r * r) + PI * r * sqrt (l * l + r * r) in let err := 20 * INR na * (r + l) * c in
    exists m, mb_cone L W meq dbg self SZ rot_align na co = Ok (Some m) /\
      Rabs (float_area m - (INR na / 2 * sin az * (r * r) + INR na * sin (az / 2) * r * sqrt (l * l + r * cos (az / 2) * (r * cos (az / 2))))) <= err /\
      (1 - az * az / 6) * full - err <= float_area m <= full + err.
Proof.
  intros p e Hp He H2 f g h pi S L W meq dbg self SZ rot_align k na co A d t M Hna HW Ht HL Hm Hk seg src tgt r l HR HsM HM Fr Hr Hre HA HX Hdbg c Hs1 Hs2 az full err.
  destruct (cone_setup p e Hp He H2 f g h pi L W meq rot_align k na co A d t M Hna HW Ht HL Hm Hk HR HsM HM Fr Hr Hre HA HX Hs1 Hs2) as (fp & Ep & Hn & Hs & Hv & Hc & _ & Hl).
  destruct (cone_built p e Hp He H2 f g h pi L W meq dbg self SZ rot_align k na co Hna HW Hdbg Hn Hs Hv) as (m & Em & _ & pos & Hpos & Hw).
  exists m. split; [exact Em|].
  assert (Hps : forall v, In v (kvs na) -> pos v = fp v) by (apply map_eq_in; exact (eq_trans Hpos Ep)).
  pose proof (ew_slack _ _ HL) as t0. pose proof (bpow_gt_0 radix2 k) as k0. pose proof (INR_a na Hna) as Ia.
  assert (l0 : 0 < l) by exact Hl.
  assert (c6 : 6 * c <= r + l).
  { destruct (Rle_or_lt c 0); [lra|]. assert (3 * (2 * c) <= INR na * (2 * c + t + bpow radix2 k)) by (apply Rmult_le_compat; lra). lra. }
  assert (E : twice_area (fun v => affine A (vreal src) (kpos na r l v)) (map (ktri na) (ktags na)) / 2 = INR na / 2 * sin az * (r * r) + INR na * sin (az / 2) * r * sqrt (l * l + r * cos (az / 2) * (r * cos (az / 2)))).
  { rewrite twice_area_affine by (apply rigid_shift, HA). rewrite (cone_twice na Hna r) by assumption. fold az. field. }
  assert (K : Rabs (float_area m - (INR na / 2 * sin az * (r * r) + INR na * sin (az / 2) * r * sqrt (l * l + r * cos (az / 2) * (r * cos (az / 2))))) <= err).
  { rewrite <- E. eapply Rle_trans; [apply (float_area_close f g h pi L self _ Hv (map (ktri na) (ktags na)) pos m (fun v => In v (kvs na)) (fun v => affine A (vreal src) (kpos na r l v)) (affine A (vreal src) (0, (0, (l / 2, tt)))) (r + l) c (2 * na))|].
    - rewrite map_length. rewrite ktags_length. lia.
    - exact Hw.
    - intros x y z Hin. destruct (corners_in _ _ (cone_corner na Hna) x y z Hin) as (A1 & A2 & A3). repeat split; apply kvs_all; assumption.
    - intros v Hin. exact (eq_ind _ (fun l => In (pos v) l) (in_map pos (kvs na) v Hin) _ Hpos).
    - intros v Hin. rewrite (Hps v Hin). exact (Hc v Hin).
    - intros v Hin. rewrite (rigid_shift A (vreal src) (proj1 HA)). apply kpos_dist; assumption.
    - exact c6.
    - unfold err. apply Req_le. rewrite mult_INR. cbn [INR]. field. }
  split; [exact K|]. pose proof (cone_shell na r l Hna Hr Hl) as (B1 & B2). cbv zeta in B1, B2. fold az full in B1, B2. apply Rabs_le_inv in K. lra.
Qed.
Print Assumptions C88_cone.

Theorem C88_cylinder :
  forall p e Hp He, (2 < p)%Z -> forall f g h pi,
  let S := IEEE p e Hp He f g h pi in
  forall (L : Linal S) W meq dbg self SZ (rot_align : hvec S -> hvec S -> hmat S) (k : Z) (na : nat) (cy : cylinder S) (A : vec (vec R 3) 3) (d t M : R),
    (3 <= na)%nat -> (12 * na < W)%nat ->
    trig_accurate d f g pi -> equal_within L t -> identity_within meq t -> (3 - e - p <= 2 * k)%Z ->
    let seg := cy_segment cy in
    let src := g_source seg : vec (binary_float p e) 3 in let tgt := g_target seg : vec (binary_float p e) 3 in
    let r := B2R (cy_radius cy : binary_float p e) in let l := rdist (vreal tgt) (vreal src) in
    in_reach tgt src -> (forall i, (i < 3)%nat -> Rabs (fval i src) <= M) -> M <= bpow radix2 (e - 4) ->
    is_finite (cy_radius cy : binary_float p e) = true -> 0 < r -> r + l <= bpow radix2 (e - 4) ->
    rotation_onto A (rdirection (rsub (vreal tgt) (vreal src))) ->
    rotation_within d A (rot_align (mk4 s0 s0 s1 s1) (to_hvec (segment_direction seg))) ->
    let c := 150 * (d * (r + l)) + 10 * bpow radix2 k + 4 * (uround p * M) + t * (1 + 3 * (r + l)) in
    INR na * (2 * c + t + bpow radix2 k) <= r -> 2 * (2 * c + t + bpow radix2 k) <= l ->
    let az := 2 * PI / INR na in let full := 2 * PI * (r * r) + 2 * PI * r * l in let err := 40 * INR na * (r + l) * c in
    exists m, mb_cylinder L W meq dbg self SZ rot_align na cy = Ok (Some m) /\
      Rabs (float_area m - (INR na * sin az * (r * r) + 2 * INR na * sin (az / 2) * r * l)) <= err /\
      (1 - az * az / 6) * full - err <= float_area m <= full + err.
Proof.
  intros p e Hp He H2 f g h pi S L W meq dbg self SZ rot_align k na cy A d t M Hna HW Ht HL Hm Hk seg src tgt r l HR HsM HM Fr Hr Hre HA HX c Hs1 Hs2 az full err.
  destruct (cylinder_setup p e Hp He H2 f g h pi L W meq rot_align k na cy A d t M Hna HW Ht HL Hm Hk HR HsM HM Fr Hr Hre HA HX Hs1 Hs2) as (fp & Ep & Hn & Hs & Hv & Hc & _ & Hl).
  destruct (cylinder_built p e Hp He H2 f g h pi L W meq dbg self SZ rot_align k na cy Hna HW Hn Hs Hv) as (m & Em & _ & pos & Hpos & Hw).
  exists m. split; [exact Em|].
  assert (Hps : forall v, In v (yvs na) -> pos v = fp v) by (apply map_eq_in; exact (eq_trans Hpos Ep)).
  pose proof (ew_slack _ _ HL) as t0. pose proof (bpow_gt_0 radix2 k) as k0. pose proof (INR_a na Hna) as Ia.
  assert (l0 : 0 < l) by exact Hl.
  assert (c6 : 6 * c <= r + l).
  { destruct (Rle_or_lt c 0); [lra|]. assert (3 * (2 * c) <= INR na * (2 * c + t + bpow radix2 k)) by (apply Rmult_le_compat; lra). lra. }
  assert (E : twice_area (fun v => affine A (vreal src) (ypos na r l v)) (map (ytri na) (ytags na)) / 2 = INR na * sin az * (r * r) + 2 * INR na * sin (az / 2) * r * l).
  { rewrite twice_area_affine by (apply rigid_shift, HA). rewrite (cylinder_twice na Hna r) by assumption. fold az. field. }
  assert (K : Rabs (float_area m - (INR na * sin az * (r * r) + 2 * INR na * sin (az / 2) * r * l)) <= err).
  { rewrite <- E. eapply Rle_trans; [apply (float_area_close f g h pi L self _ Hv (map (ytri na) (ytags na)) pos m (fun v => In v (yvs na)) (fun v => affine A (vreal src) (ypos na r l v)) (affine A (vreal src) (0, (0, (l / 2, tt)))) (r + l) c (4 * na))|].
    - rewrite map_length. rewrite ytags_length. lia.
    - exact Hw.
    - intros x y z Hin. destruct (corners_in _ _ (cyl_corner na Hna) x y z Hin) as (A1 & A2 & A3). repeat split; apply yvs_all; assumption.
    - intros v Hin. exact (eq_ind _ (fun l => In (pos v) l) (in_map pos (yvs na) v Hin) _ Hpos).
    - intros v Hin. rewrite (Hps v Hin). exact (Hc v Hin).
    - intros v Hin. rewrite (rigid_shift A (vreal src) (proj1 HA)). apply ypos_dist; assumption.
    - exact c6.
    - unfold err. apply Req_le. rewrite mult_INR. cbn [INR]. field. }
  split; [exact K|]. pose proof (cylinder_shell na r l Hna Hr Hl) as (B1 & B2). cbv zeta in B1, B2. fold az full in B1, B2. apply Rabs_le_inv in K. lra.
Qed.
Print Assumptions C88_cylinder.

(** The hypotheses are met in the cases of C68 and C70 (16 by 32 points on a sphere of
    radius 2; 32 points on rims of radius 2, four apart), and the errors are small
    against the areas. *)
Example C88_example :
  (INR 16 * INR 32 <= bpow radix2 30 /\
   let r := B2R (s_radius csphere : b64) in bpow radix2 (-300) <= r <= bpow radix2 900 /\
     bpow radix2 (-28) * (INR 16 * INR 32) * (r * r) <= bpow radix2 (-19) * (4 * PI * (r * r))) /\
  let r := B2R (b64_ofZ 2) in let l := rdist (vreal (g_target caxis : vec b64 3)) (vreal (g_source caxis : vec b64 3)) in
  let c := 150 * (bpow radix2 (-52) * (r + l)) + 10 * bpow radix2 (-340) + 4 * (uround 53 * 4) + 0 * (1 + 3 * (r + l)) in
  INR 32 * (2 * c + 0 + bpow radix2 (-340)) <= r /\ 2 * (2 * c + 0 + bpow radix2 (-340)) <= l /\
  40 * INR 32 * (r + l) * c <= / 100 * (2 * PI * (r * r) + 2 * PI * r * l).
Proof.
  destruct (b64_small 1 ltac:(lia)) as (F1 & E1). destruct (b64_small 2 ltac:(lia)) as (F2 & E2).
  destruct (b64_small 3 ltac:(lia)) as (F3 & E3). destruct (b64_small 7 ltac:(lia)) as (F7 & E7).
  pose proof PI2_1 as P1. pose proof PI_4 as P4.
  split.
  { split; [cbn; lra|]. intros r. assert (Er : r = 2) by exact E2. rewrite Er. split; [split; change 2 with (bpow radix2 1); apply bpow_le; lia|].
    cbn. lra. }
  intros r l. assert (Er : r = 2) by exact E2.
  assert (Vs : vreal (g_source caxis : vec b64 3) = (1, (2, (3, tt)))).
  { transitivity (B2R (b64_ofZ 1), (B2R (b64_ofZ 2), (B2R (b64_ofZ 3), tt))); [reflexivity|]. rewrite E1, E2, E3. reflexivity. }
  assert (Vt : vreal (g_target caxis : vec b64 3) = (1, (2, (7, tt)))).
  { transitivity (B2R (b64_ofZ 1), (B2R (b64_ofZ 2), (B2R (b64_ofZ 7), tt))); [reflexivity|]. rewrite E1, E2, E7. reflexivity. }
  assert (El : l = 4).
  { unfold l, rdist, rnorm. rewrite Vs, Vt. cbn. replace ((1 - 1) * (1 - 1) + ((2 - 2) * (2 - 2) + ((7 - 3) * (7 - 3) + 0))) with (4 * 4) by ring.
    apply sqrt_square. lra. }
  rewrite Er, El. assert (E32 : INR 32 = 32) by (cbn; ring). rewrite E32. intros c.
  assert (d9 : bpow radix2 (-52) <= bpow radix2 (-30)) by (apply bpow_le; lia). assert (d20 : 1000000000 * bpow radix2 (-30) <= 1) by (cbn; lra).
  assert (u9 : uround 53 <= bpow radix2 (-30)) by (apply bpow_le; lia).
  assert (k9 : bpow radix2 (-340) <= bpow radix2 (-30)) by (apply bpow_le; lia).
  split; [unfold c; lra|]. split; [unfold c; lra|]. unfold c. lra.
Qed.
