(** * Property theorems: area and solid of cuboids in floating point (C90) *)

From Coq Require Import List Arith Bool Lia Permutation ZArith Reals Lra.
From Flocq Require Import Core BinarySingleNaN.
From Verif Require Import Scalar Linal Result SpecReal VecR VecLemmas ModelKdTree SpecKdTree SpecIEEE SpecFloatErr SpecFloatTess SpecFloatOut SpecFloatVolume SpecVertexOut SpecWeld SpecArea SpecFloatArea SpecConvex SpecFloatConvex
  ModelShapes ModelTransform ModelMesh SpecMesh ModelTess SpecTess ProofMesh ProofMeshMisc ProofMeshNormal ProofTessComb ProofTessConn ProofTessMesh ProofTess ProofTessCuboid ProofVolume ProofArea ProofConvex ProofConvexOut
  ProofRound ProofIEEE ProofBoxIEEE ProofFloatErr ProofFloatSphere ProofFloatTrig ProofFloatNormal ProofMeshIEEE ProofFloatTess ProofFloatOut ProofVertexOut ProofFloatVolume ProofFloatArea ProofFloatConvex ProofWeld ProofWeldBox
  PropMeshIEEE PropFloatTess PropFloatOut PropWeld.
Import ListNotations.
Local Open Scope R_scope.

(** points behind all the triangles of a right-handed cuboid are points of the cuboid *)
Lemma cuboid_inside (o x y z q : vec R 3) : 0 < rdot (rcross x y) z ->
  (forall i j l, In (i, j, l) btris -> 0 <= sixvol q (bpos o x y z l) (bpos o x y z j) (bpos o x y z i)) -> solid_cuboid o x y z q.
Proof.
  intros Hd Hq. destruct (cuboid_coordinates o x y z q ltac:(lra)) as (a & b & c & ->). exists a, b, c.
  assert (K : forall w, In w [a; 1 - a; b; 1 - b; c; 1 - c] -> 0 <= w).
  { intros w Hw. destruct (btri_each o x y z a b c w Hw) as (i & j & k & Hin & Ev).
    pose proof (Hq i j k Hin) as K. rewrite Ev in K.
    apply Rmult_le_reg_r with (rdot (rcross x y) z); [exact Hd|]. rewrite Rmult_0_l. exact K. }
  pose proof (K a ltac:(cbn; auto 9)). pose proof (K (1 - a) ltac:(cbn; auto 9)). pose proof (K b ltac:(cbn; auto 9)).
  pose proof (K (1 - b) ltac:(cbn; auto 9)). pose proof (K c ltac:(cbn; auto 9)). pose proof (K (1 - c) ltac:(cbn; auto 9)).
  repeat split; lra.
Qed.
Lemma cuboid_reach o x y z q A : 0 <= A -> (forall i, (i < 3)%nat -> Rabs (vnth 0 i x) <= A /\ Rabs (vnth 0 i y) <= A /\ Rabs (vnth 0 i z) <= A) ->
  solid_cuboid o x y z q -> rdist q (cuboid_point o x y z (1/2) (1/2) (1/2)) <= 3 * A.
Proof.
  intros HA H (a & b & c & Ha & Hb & Hc & ->). unfold rdist. replace (3 * A) with (2 * (3 / 2 * A)) by field. apply norm_of_comps.
  intros i Hi. destruct (H i Hi) as (Hx & Hy & Hz). clear H.
  assert (E : vnth 0 i (rsub (cuboid_point o x y z a b c) (cuboid_point o x y z (1/2) (1/2) (1/2))) =
    (a - 1/2) * vnth 0 i x + (b - 1/2) * vnth 0 i y + (c - 1/2) * vnth 0 i z).
  { unfold cuboid_point. revert Hi. clear. intros Hi. destruct o as (? & ? & ? & []), x as (? & ? & ? & []), y as (? & ? & ? & []), z as (? & ? & ? & []).
    destruct i as [|[|[|i]]]; [| | |lia]; cbn; ring. }
  rewrite E. assert (B : forall s r, 0 <= s <= 1 -> Rabs r <= A -> Rabs ((s - 1/2) * r) <= 1/2 * A).
  { intros s r Hs Hr. rewrite Rabs_mult. apply Rmult_le_compat; try apply Rabs_pos; [apply Rabs_le; lra|exact Hr]. }
  eapply Rle_trans; [apply Rabs_triang|]. pose proof (Rabs_triang ((a - 1/2) * vnth 0 i x) ((b - 1/2) * vnth 0 i y)) as T.
  pose proof (B a _ Ha Hx). pose proof (B b _ Hb Hy). pose proof (B c _ Hc Hz). lra.
Qed.

(** ** C90: the hypotheses on the sides are those of C82. *)
Theorem C90_cuboid_area :
  forall p e Hp He, (2 < p)%Z -> forall f g h pi,
  let S := IEEE p e Hp He f g h pi in
  forall (L : Linal S) W dbg self SZ (k : Z) (o0 d0 : point S) (o x y z : vec (binary_float p e) 3) (A M t s : R),
    (36 < W)%nat -> equal_within L t -> equal_if_within L s -> (3 - e - p <= 2 * k)%Z ->
    finite_pt o -> finite_pt x -> finite_pt y -> finite_pt z ->
    (forall i, (i < 3)%nat -> Rabs (fval i o) <= M) ->
    (forall i, (i < 3)%nat -> Rabs (fval i x) <= A /\ Rabs (fval i y) <= A /\ Rabs (fval i z) <= A) ->
    4 * A + 2 * M <= bpow radix2 (e - 1) ->
    let c := uround p * (8 * A + 3 * M) in
    2 * c <= s ->
    8 * (A * A) * (2 * c + t + bpow radix2 k) <= Rabs (rdot (rcross (vreal x) (vreal y)) (vreal z)) -> 0 < A ->
    exists m, mb_cuboid L W dbg self SZ o0 d0 (@mkCuboid S o x y z) = Ok m /\
      Rabs (float_area m - 2 * (rnorm (rcross (vreal x) (vreal y)) + rnorm (rcross (vreal y) (vreal z)) + rnorm (rcross (vreal x) (vreal z)))) <= 360 * A * c.
Proof.
  intros p e Hp He H2 f g h pi S L W dbg self SZ k o0 d0 o x y z A M t s HW HL HS Hk Fo Fx Fy Fz Bo Bs HAM c Hs Hd A0.
  assert (M0 : 0 <= M) by (eapply Rle_trans; [apply Rabs_pos|apply (Bo 0%nat); lia]).
  destruct (cuboid_weld H2 f g h pi o x y z (vreal o) (vreal x) (vreal y) (vreal z) A M (near_self o M Fo Bo) (near_self x A Fx (fun i Hi => proj1 (Bs i Hi)))
    (near_self y A Fy (fun i Hi => proj1 (proj2 (Bs i Hi)))) (near_self z A Fz (fun i Hi => proj2 (proj2 (Bs i Hi)))) A0 M0 HAM L t s HL HS k Hk Hs Hd W dbg self SZ HW)
    as (m & pos & E & _ & Hw & _ & HG & Hc).
  exists m. split; [exact (mb_cuboid_ok L W dbg self SZ o0 d0 _ m E)|].
  set (D := rdot (rcross (vreal x) (vreal y)) (vreal z)) in *.
  assert (Nx : rnorm (vreal x) <= 2 * A) by (apply norm_of_comps; intros i Hi; rewrite vnth_real; apply Bs, Hi).
  assert (Ny : rnorm (vreal y) <= 2 * A) by (apply norm_of_comps; intros i Hi; rewrite vnth_real; apply Bs, Hi).
  assert (Nz : rnorm (vreal z) <= 2 * A) by (apply norm_of_comps; intros i Hi; rewrite vnth_real; apply Bs, Hi).
  pose proof (det_le (vreal x) (vreal y) (vreal z)) as HD. fold D in HD. change (Rabs D <= rnorm (vreal x) * rnorm (vreal y) * rnorm (vreal z)) in HD.
  pose proof (rnorm_nonneg (vreal x)) as X0. pose proof (rnorm_nonneg (vreal y)) as Y0. pose proof (rnorm_nonneg (vreal z)) as Z0.
  assert (HD8 : Rabs D <= 8 * (A * A) * A).
  { eapply Rle_trans; [exact HD|]. replace (8 * (A * A) * A) with (2 * A * (2 * A) * (2 * A)) by ring.
    apply Rmult_le_compat; try assumption; [apply Rmult_le_pos; assumption|]. apply Rmult_le_compat; assumption. }
  pose proof (ew_slack _ _ HL) as t0. pose proof (bpow_gt_0 radix2 k) as k0. pose proof (@u_pos p) as u0.
  assert (c6 : 6 * c <= 3 * A).
  { assert (AA : 0 < 8 * (A * A)) by (assert (0 < A * A) by (apply Rmult_lt_0_compat; exact A0); lra).
    assert (K : 2 * c + t + bpow radix2 k <= A) by (apply Rmult_le_reg_l with (8 * (A * A)); [exact AA|lra]). lra. }
  assert (ES : twice_area (bpos (vreal o) (vreal x) (vreal y) (vreal z)) btris / 2 = 2 * (rnorm (rcross (vreal x) (vreal y)) + rnorm (rcross (vreal y) (vreal z)) + rnorm (rcross (vreal x) (vreal z)))).
  { rewrite cuboid_twice. field. }
  rewrite <- ES. eapply Rle_trans; [apply (float_area_close f g h pi L self (fun q => In q (map pos (seq 0 8))) HG btris pos m bv_ok (bpos (vreal o) (vreal x) (vreal y) (vreal z)) (cuboid_point (vreal o) (vreal x) (vreal y) (vreal z) (1/2) (1/2) (1/2)) (3 * A) c 12)|].
  - reflexivity.
  - exact Hw.
  - intros i j l Hin. destruct (corners_in _ _ btri_corner i j l Hin) as (A1 & A2 & A3). auto.
  - intros v Hv. apply in_map. apply in_seq. unfold bv_ok in Hv. lia.
  - exact Hc.
  - intros v _. apply corner_radius; [lra|]. intros i Hi. rewrite !vnth_real. apply Bs, Hi.
  - exact c6.
  - apply Req_le. cbn [INR]. field.
Qed.
Print Assumptions C90_cuboid_area.

(** The polyhedron and the solid cuboid contain each other up to the factor [1 - w]
    towards the centre. *)
Theorem C90_cuboid_enclosed :
  forall p e Hp He, (2 < p)%Z -> forall f g h pi,
  let S := IEEE p e Hp He f g h pi in
  forall (L : Linal S) W dbg self SZ (k : Z) (o0 d0 : point S) (o x y z : vec (binary_float p e) 3) (A M t s : R),
    (36 < W)%nat -> equal_within L t -> equal_if_within L s -> (3 - e - p <= 2 * k)%Z ->
    finite_pt o -> finite_pt x -> finite_pt y -> finite_pt z ->
    (forall i, (i < 3)%nat -> Rabs (fval i o) <= M) ->
    (forall i, (i < 3)%nat -> Rabs (fval i x) <= A /\ Rabs (fval i y) <= A /\ Rabs (fval i z) <= A) ->
    4 * A + 2 * M <= bpow radix2 (e - 1) ->
    let c := uround p * (8 * A + 3 * M) in let D := rdot (rcross (vreal x) (vreal y)) (vreal z) in
    2 * c <= s -> 8 * (A * A) * (2 * c + t + bpow radix2 k) <= D -> 0 < A ->
    let w := 1728 * (A * A) * c / D in w <= 1 / 2 ->
    let centre := cuboid_point (vreal o) (vreal x) (vreal y) (vreal z) (1/2) (1/2) (1/2) in
    exists m, mb_cuboid L W dbg self SZ o0 d0 (@mkCuboid S o x y z) = Ok m /\
      (forall q, solid_cuboid (vreal o) (vreal x) (vreal y) (vreal z) q -> float_enclosed m (toward centre w q)) /\
      (forall q, float_enclosed m q -> solid_cuboid (vreal o) (vreal x) (vreal y) (vreal z) (toward centre w q)).
Proof.
  intros p e Hp He H2 f g h pi S L W dbg self SZ k o0 d0 o x y z A M t s HW HL HS Hk Fo Fx Fy Fz Bo Bs HAM c D Hs Hd A0 w Hw1 centre.
  assert (M0 : 0 <= M) by (eapply Rle_trans; [apply Rabs_pos|apply (Bo 0%nat); lia]).
  pose proof (ew_slack _ _ HL) as t0. pose proof (bpow_gt_0 radix2 k) as k0. pose proof (@u_pos p) as u0.
  assert (c0 : 0 <= c) by (unfold c; apply Rmult_le_pos; lra).
  assert (AA : 0 < A * A) by (apply Rmult_lt_0_compat; exact A0).
  assert (D0 : 0 < D) by (eapply Rlt_le_trans; [|exact Hd]; apply Rmult_lt_0_compat; lra).
  assert (Hd' : 8 * (A * A) * (2 * c + t + bpow radix2 k) <= Rabs D) by (rewrite Rabs_right by lra; exact Hd).
  destruct (cuboid_weld H2 f g h pi o x y z (vreal o) (vreal x) (vreal y) (vreal z) A M (near_self o M Fo Bo) (near_self x A Fx (fun i Hi => proj1 (Bs i Hi)))
    (near_self y A Fy (fun i Hi => proj1 (proj2 (Bs i Hi)))) (near_self z A Fz (fun i Hi => proj2 (proj2 (Bs i Hi)))) A0 M0 HAM L t s HL HS k Hk Hs Hd' W dbg self SZ HW)
    as (m & pos & E & _ & Hw & _ & HG & Hc).
  exists m. split; [exact (mb_cuboid_ok L W dbg self SZ o0 d0 _ m E)|].
  assert (Nx : rnorm (vreal x) <= 2 * A) by (apply norm_of_comps; intros i Hi; rewrite vnth_real; apply Bs, Hi).
  assert (Ny : rnorm (vreal y) <= 2 * A) by (apply norm_of_comps; intros i Hi; rewrite vnth_real; apply Bs, Hi).
  assert (Nz : rnorm (vreal z) <= 2 * A) by (apply norm_of_comps; intros i Hi; rewrite vnth_real; apply Bs, Hi).
  pose proof (det_le (vreal x) (vreal y) (vreal z)) as HD. fold D in HD. change (Rabs D <= rnorm (vreal x) * rnorm (vreal y) * rnorm (vreal z)) in HD.
  pose proof (rnorm_nonneg (vreal x)) as X0. pose proof (rnorm_nonneg (vreal y)) as Y0. pose proof (rnorm_nonneg (vreal z)) as Z0.
  assert (HD8 : Rabs D <= 8 * (A * A) * A).
  { eapply Rle_trans; [exact HD|]. replace (8 * (A * A) * A) with (2 * A * (2 * A) * (2 * A)) by ring.
    apply Rmult_le_compat; try assumption; [apply Rmult_le_pos; assumption|]. apply Rmult_le_compat; assumption. }
  assert (c6 : 6 * c <= 3 * A).
  { assert (K : 2 * c + t + bpow radix2 k <= A) by (apply Rmult_le_reg_l with (8 * (A * A)); [lra|lra]). lra. }
  assert (w0 : 0 <= w).
  { unfold w. apply Rmult_le_pos; [|left; apply Rinv_0_lt_compat, D0]. apply Rmult_le_pos; lra. }
  assert (Bx : forall i, (i < 3)%nat -> Rabs (vnth 0 i (vreal x)) <= A /\ Rabs (vnth 0 i (vreal y)) <= A /\ Rabs (vnth 0 i (vreal z)) <= A).
  { intros i Hi. rewrite !vnth_real. apply Bs, Hi. }
  destruct (float_sandwich f g h pi L self (fun q => In q (map pos (seq 0 8))) HG btris pos m bv_ok (bpos (vreal o) (vreal x) (vreal y) (vreal z)) centre (3 * A) c (D / 2) w) as (I1 & I2).
  - exact Hw.
  - intros i j l Hin. destruct (corners_in _ _ btri_corner i j l Hin) as (A1 & A2 & A3). auto.
  - intros v Hv. apply in_map. apply in_seq. unfold bv_ok in Hv. lia.
  - exact Hc.
  - intros v _. apply corner_radius; [lra|exact Bx].
  - intros i j l Hin. apply Req_le. symmetry. exact (corner_sixvol (vreal o) (vreal x) (vreal y) (vreal z) i j l Hin).
  - lra.
  - exact c0.
  - exact c6.
  - split; assumption.
  - apply Req_le. unfold w. field. lra.
  - intros q Hq. apply cuboid_reach; [lra|exact Bx|]. exact (cuboid_inside _ _ _ _ _ D0 Hq).
  - split.
    + intros q (a & b & cc & Ha & Hb & Hcc & ->). apply I1. intros i j l Hin.
      destruct (btri_side (vreal o) (vreal x) (vreal y) (vreal z) a b cc i j l Ha Hb Hcc Hin) as (v & Hv & ->). apply Rmult_le_pos; [exact Hv|]. apply Rlt_le, D0.
    + intros q Hq. exact (cuboid_inside _ _ _ _ _ D0 (I2 q Hq)).
Qed.
Print Assumptions C90_cuboid_enclosed.

(** The turned cube of C82 meets the hypotheses. *)
Example C90_example :
  forall f g h pi, let S := B64 f g h pi in
  forall (o0 d0 : point S) dbg, let w := b64_pow 1 (-30) in let L := tolvec_linal S w in let c := turned_cube f g h pi in
    let o := vreal (cu_origin c : vec b64 3) in let x := vreal (cu_x c : vec b64 3) in let y := vreal (cu_y c : vec b64 3) in let z := vreal (cu_z c : vec b64 3) in
    (exists m, mb_cuboid L 256 dbg 7%nat 256 o0 d0 c = Ok m /\
      Rabs (float_area m - 2 * (rnorm (rcross x y) + rnorm (rcross y z) + rnorm (rcross x z))) <= bpow radix2 (-40)) /\
    let centre := cuboid_point o x y z (1/2) (1/2) (1/2) in
    exists m v, 0 <= v <= bpow radix2 (-30) /\ mb_cuboid L 256 dbg 7%nat 256 o0 d0 c = Ok m /\
      (forall q, solid_cuboid o x y z q -> float_enclosed m (toward centre v q)) /\
      (forall q, float_enclosed m q -> solid_cuboid o x y z (toward centre v q)).
Proof.
  intros f g h pi S o0 d0 dbg w L c o x y z.
  destruct (turned_facts f g h pi) as (Fo & Fx & Fy & Fz & Bo & Bs & HD). fold c in Fo, Fx, Fy, Fz, Bo, Bs, HD.
  destruct (@pow_spec 53 1024 prec53 prec_emax64 1 (-30) eq_refl ltac:(lia) ltac:(lia)) as [Fw Ew]. change (ieee_pow 53 1024 prec53 prec_emax64 1 (-30)) with w in Fw, Ew.
  rewrite Rmult_1_l in Ew.
  assert (d40 : bpow radix2 (-40) <= / 1024) by (change (/ 1024) with (bpow radix2 (-10)); apply bpow_le; lia).
  assert (d30 : 0 < bpow radix2 (-30) <= / 1024) by (split; [apply bpow_gt_0|change (/ 1024) with (bpow radix2 (-10)); apply bpow_le; lia]).
  assert (Eu : 4194304 * uround 53 * 2 = bpow radix2 (-30)) by (unfold uround; change 4194304 with (bpow radix2 22); replace 2 with (bpow radix2 1) by reflexivity; rewrite <- !bpow_plus; reflexivity).
  assert (Eu40 : 8192 * uround 53 = bpow radix2 (-40)) by (unfold uround; change 8192 with (bpow radix2 13); rewrite <- bpow_plus; reflexivity).
  assert (u0 : 0 < uround 53) by apply bpow_gt_0.
  destruct (C82_tolerance 53 1024 prec53 prec_emax64 f g h pi w Fw ltac:(rewrite Ew; lra)) as (T1 & T2).
  assert (G : generic_format radix2 (FLT_exp (3 - 1024 - 53) 53) (B2R w)) by apply (generic_format_B2R 53 1024).
  assert (Hs : succ radix2 (FLT_exp (3 - 1024 - 53) 53) (B2R w) <= 2 * B2R w).
  { rewrite succ_eq_pos by (rewrite Ew; lra). assert (U : ulp radix2 (FLT_exp (3 - 1024 - 53) 53) (B2R w) <= B2R w) by (apply ulp_le_id; [rewrite Ew; lra|exact G]). lra. }
  assert (E31 : 2 * bpow radix2 (-31) = bpow radix2 (-30)) by (change 2 with (bpow radix2 1); rewrite <- bpow_plus; reflexivity).
  apply Rabs_le_inv in HD. rewrite Ew in Hs.
  assert (HR : 4 * 1 + 2 * 3 <= bpow radix2 (1024 - 1)) by (apply Rle_trans with (bpow radix2 4); [cbn; lra|apply bpow_le; lia]).
  change (cu_x c : vec b64 3) with (cu_x c : vec b64 3) in HD.
  set (D := rdot (rcross (vreal (cu_x c : vec b64 3)) (vreal (cu_y c : vec b64 3))) (vreal (cu_z c : vec b64 3))) in *.
  assert (H1 : 2 * (uround 53 * (8 * 1 + 3 * 3)) <= B2R w) by (rewrite Ew, <- Eu; lra).
  assert (H3 : 8 * (1 * 1) * (2 * (uround 53 * (8 * 1 + 3 * 3)) + succ radix2 (FLT_exp (3 - 1024 - 53) 53) (B2R w) + bpow radix2 (-31)) <= D) by (rewrite Ew; lra).
  assert (H4 : 8 * (1 * 1) * (2 * (uround 53 * (8 * 1 + 3 * 3)) + succ radix2 (FLT_exp (3 - 1024 - 53) 53) (B2R w) + bpow radix2 (-31)) <= Rabs D) by (rewrite Rabs_right; lra).
  assert (D0 : 0 < D) by lra.
  set (v := 1728 * (1 * 1) * (uround 53 * (8 * 1 + 3 * 3)) / D).
  assert (v1 : 0 <= v <= bpow radix2 (-30)).
  { unfold v. split; [apply Rmult_le_pos; [lra|left; apply Rinv_0_lt_compat, D0]|].
    apply Rmult_le_reg_r with D; [exact D0|]. unfold Rdiv. rewrite Rmult_assoc, Rinv_l, Rmult_1_r by lra.
    assert (1 / 2 * bpow radix2 (-30) <= D * bpow radix2 (-30)) by (apply Rmult_le_compat_r; lra). lra. }
  split.
  - destruct (C90_cuboid_area 53 1024 prec53 prec_emax64 eq_refl f g h pi L 256 dbg 7%nat 256 (-31) o0 d0 (cu_origin c) (cu_x c) (cu_y c) (cu_z c) 1 3 _ (B2R w) ltac:(lia) T2 T1 ltac:(lia) Fo Fx Fy Fz Bo Bs HR H1 H4 ltac:(lra)) as (m & Em & Ha).
    exists m. split; [exact Em|]. eapply Rle_trans; [exact Ha|]. lra.
  - intros centre.
    destruct (C90_cuboid_enclosed 53 1024 prec53 prec_emax64 eq_refl f g h pi L 256 dbg 7%nat 256 (-31) o0 d0 (cu_origin c) (cu_x c) (cu_y c) (cu_z c) 1 3 _ (B2R w) ltac:(lia) T2 T1 ltac:(lia) Fo Fx Fy Fz Bo Bs HR H1 H3 ltac:(lra)) as (m & Em & I1 & I2).
    { change (v <= 1 / 2). lra. }
    exists m, v. split; [exact v1|]. split; [exact Em|]. split; [exact I1|exact I2].
Qed.
