(** * Property theorems: welding of nearly equal corners (C82) *)

From Coq Require Import List Arith Bool Lia Permutation ZArith Reals Lra.
From Flocq Require Import Core BinarySingleNaN.
From Verif Require Import Scalar Linal Result SpecReal VecR VecLemmas ModelKdTree SpecKdTree SpecIEEE SpecFloatErr SpecFloatTess SpecFloatOut SpecFloatVolume SpecVertexOut SpecWeld
  ModelShapes ModelTransform ModelMesh SpecMesh ModelTess SpecTess ProofMesh ProofMeshMisc ProofMeshNormal ProofTessComb ProofTessConn ProofTessMesh ProofTess ProofTessCuboid ProofVolume
  ProofRound ProofIEEE ProofBoxIEEE ProofFloatErr ProofFloatSphere ProofFloatTrig ProofFloatNormal ProofMeshIEEE ProofFloatTess ProofFloatOut ProofVertexOut ProofFloatVolume ProofWeld ProofWeldBox
  PropMeshIEEE PropFloatTess PropFloatOut.
Import ListNotations.
Local Open Scope R_scope.

(** ** C82: any scalar type, any triangles.  The builder sees no difference between a
    corner and the first corner that [operator==] takes for it. *)
Theorem C82_weld :
  forall {S : Scalar} (L : Linal S) W dbg a SZ (ts : list (triangle S)),
    groups L (points_of ts) ->
    built L W dbg a SZ ts = built L W dbg a SZ (welded L ts) /\
    veq_on L (fun x => In x (points_of (welded L ts))) /\
    (forall q, In q (points_of (welded L ts)) -> In q (points_of ts)) /\
    Forall2 (fun t t' => let '(p0, p1, p2) := t in let '(q0, q1, q2) := t' in
      veq L q0 p0 = true /\ veq L q1 p1 = true /\ veq L q2 p2 = true) ts (welded L ts).
Proof.
  intros S L W dbg a SZ ts Hg. split; [|split; [exact (welded_exact L ts Hg)|split]].
  - unfold built, mesh_run. rewrite !foldM_app, !adds_run, (add_triangles_welded L W dbg a ts Hg). reflexivity.
  - intros q Hq. rewrite welded_points in Hq. apply in_map_iff in Hq as (x & <- & Hx). apply (fe_found L (points_of ts) Hg x Hx).
  - assert (K : forall us, (forall q, In q (points_of us) -> In q (points_of ts)) -> Forall2 (fun t t' => let '(p0, p1, p2) := t in let '(q0, q1, q2) := t' in
      veq L q0 p0 = true /\ veq L q1 p1 = true /\ veq L q2 p2 = true) us (map (weld L (points_of ts)) us)).
    { induction us as [|[[x y] z] us IH]; intros Hin; [constructor|]. cbn [map]. constructor; [|apply IH; intros q Hq; apply Hin; cbn; auto].
      cbn [weld]. split; [|split]; apply (fe_found L (points_of ts) Hg); apply Hin; cbn; auto. }
    rewrite welded_eq. apply K. auto.
Qed.
Print Assumptions C82_weld.

(** ** Cuboids with sides in any directions, in floating point *)
Lemma near_self {p e} (v : vec (binary_float p e) 3) A : finite_pt v -> (forall i, (i < 3)%nat -> Rabs (fval i v) <= A) -> near A 0 v (vreal v).
Proof.
  intros F H. split; [split; [exact F|]|]; intros i Hi; rewrite vnth_real; [unfold Rminus; rewrite Rplus_opp_r, Rabs_R0; lra|exact (H i Hi)].
Qed.

(** The sides have coordinates up to [A], the origin up to [M].  The comparison does not
    separate points at most [s] apart and never confuses points more than [t] apart; [c]
    bounds the rounding errors of a corner.  If the volume spanned by the sides is large
    enough, the mesh is closed with eight vertices, each near a corner. *)
Theorem C82_cuboid :
  forall p e Hp He, (2 < p)%Z -> forall f g h pi,
  let S := IEEE p e Hp He f g h pi in
  forall (L : Linal S) W dbg self SZ (k : Z) (o0 d0 : point S) (o x y z : vec (binary_float p e) 3) (A M t s : R),
    (36 < W)%nat -> equal_within L t -> equal_if_within L s -> (3 - e - p <= 2 * k)%Z ->
    finite_pt o -> finite_pt x -> finite_pt y -> finite_pt z ->
    (forall i, (i < 3)%nat -> Rabs (fval i o) <= M) ->
    (forall i, (i < 3)%nat -> Rabs (fval i x) <= A /\ Rabs (fval i y) <= A /\ Rabs (fval i z) <= A) ->
    4 * A + 2 * M <= bpow radix2 (e - 1) ->
    let c := uround p * (8 * A + 3 * M) in
    2 * c <= s ->
    8 * (A * A) * (2 * c + t + bpow radix2 k) <= Rabs (rdot (rcross (vreal x) (vreal y)) (vreal z)) -> 0 < A ->
    exists m, mb_cuboid L W dbg self SZ o0 d0 (@mkCuboid S o x y z) = Ok m /\
      closed_on W dbg self (m_points m) 12 m /\ length (m_points m) = 8%nat /\ NoDup (m_points m) /\
      (forall q, cuboid_corner (vreal o) (vreal x) (vreal y) (vreal z) q -> exists v : vec (binary_float p e) 3, In v (m_points m) /\ close_to c v q) /\
      (forall v : vec (binary_float p e) 3, In v (m_points m) -> exists q, cuboid_corner (vreal o) (vreal x) (vreal y) (vreal z) q /\ close_to c v q) /\
      forall a, Rabs (float_volume a m - rdot (rcross (vreal x) (vreal y)) (vreal z)) <= 162 * (A * A) * c.
Proof.
  intros p e Hp He H2 f g h pi S L W dbg self SZ k o0 d0 o x y z A M t s HW HL HS Hk Fo Fx Fy Fz Bo Bs HAM c Hs Hd A0.
  assert (M0 : 0 <= M) by (eapply Rle_trans; [apply Rabs_pos|apply (Bo 0%nat); lia]).
  destruct (cuboid_weld H2 f g h pi o x y z (vreal o) (vreal x) (vreal y) (vreal z) A M (near_self o M Fo Bo) (near_self x A Fx (fun i Hi => proj1 (Bs i Hi)))
    (near_self y A Fy (fun i Hi => proj1 (proj2 (Bs i Hi)))) (near_self z A Fz (fun i Hi => proj2 (proj2 (Bs i Hi)))) A0 M0 HAM L t s HL HS k Hk Hs Hd W dbg self SZ HW)
    as (m & pos & E & (V1 & V2 & V3 & V4 & V5 & V6) & Hw & Hnd & HG & Hc).
  assert (V7 : length (m_points m) = 8%nat) by (rewrite (Permutation_length V3); reflexivity).
  exists m. split; [exact (mb_cuboid_ok L W dbg self SZ o0 d0 _ m E)|].
  split; [split; [exact V1|]; split; [exact V2|]; split; [reflexivity|]; split; [exact (eq_trans V4 (eq_sym V7))|]; split; [exact V5|exact V6]|].
  split; [exact V7|]. split; [apply (Permutation_NoDup (l := map pos (seq 0 8))); [symmetry; exact V3|exact Hnd]|].
  split; [|split].
  - intros q Hq. apply bpos_corner in Hq as (v & Hv & ->). exists (pos v). split; [|exact (Hc v Hv)].
    apply (Permutation_in _ (Permutation_sym V3)). apply in_map. apply in_seq. unfold bv_ok in Hv. lia.
  - intros w Hin. apply (Permutation_in _ V3) in Hin. apply in_map_iff in Hin as (v & <- & Hv). assert (bv_ok v) by (apply in_seq in Hv; unfold bv_ok; lia).
    exists (bpos (vreal o) (vreal x) (vreal y) (vreal z) v). split; [apply bpos_corner; exists v; auto|apply Hc; assumption].
  - intros a. set (D := rdot (rcross (vreal x) (vreal y)) (vreal z)) in *.
    assert (Nx : rnorm (vreal x) <= 2 * A) by (apply norm_of_comps; intros i Hi; rewrite vnth_real; apply Bs, Hi).
    assert (Ny : rnorm (vreal y) <= 2 * A) by (apply norm_of_comps; intros i Hi; rewrite vnth_real; apply Bs, Hi).
    assert (Nz : rnorm (vreal z) <= 2 * A) by (apply norm_of_comps; intros i Hi; rewrite vnth_real; apply Bs, Hi).
    pose proof (det_le (vreal x) (vreal y) (vreal z)) as HD. fold D in HD. change (Rabs D <= rnorm (vreal x) * rnorm (vreal y) * rnorm (vreal z)) in HD.
    pose proof (rnorm_nonneg (vreal x)) as X0. pose proof (rnorm_nonneg (vreal y)) as Y0. pose proof (rnorm_nonneg (vreal z)) as Z0.
    assert (HD8 : Rabs D <= 8 * (A * A) * A).
    { eapply Rle_trans; [exact HD|]. replace (8 * (A * A) * A) with (2 * A * (2 * A) * (2 * A)) by ring.
      apply Rmult_le_compat; try assumption; [apply Rmult_le_pos; assumption|]. apply Rmult_le_compat; assumption. }
    pose proof (ew_slack _ _ HL) as t0. pose proof (bpow_gt_0 radix2 k) as k0. pose proof (@u_pos p) as u0.
    assert (c0 : 0 <= c) by (unfold c; apply Rmult_le_pos; lra).
    assert (c6 : 6 * c <= 3 * A).
    { assert (AA : 0 < 8 * (A * A)) by (assert (0 < A * A) by (apply Rmult_lt_0_compat; exact A0); lra).
      assert (K : 2 * c + t + bpow radix2 k <= A) by (apply Rmult_le_reg_l with (8 * (A * A)); [exact AA|lra]). lra. }
    assert (ES : solid6 (bpos (vreal o) (vreal x) (vreal y) (vreal z)) (cuboid_point (vreal o) (vreal x) (vreal y) (vreal z) (1/2) (1/2) (1/2)) btris / 6 = D).
    { rewrite (solid6_apex _ _ (vreal o) btris btri_closed), cuboid_solid6. fold D. field. }
    rewrite <- ES. eapply Rle_trans; [apply (float_volume_close f g h pi L self (fun q => In q (map pos (seq 0 8))) HG btris pos m bv_ok (bpos (vreal o) (vreal x) (vreal y) (vreal z)) _ a (3 * A) c 12)|].
    + reflexivity.
    + exact btri_closed.
    + exact Hw.
    + intros i j l Hin. destruct (corners_in _ _ btri_corner i j l Hin) as (A1 & A2 & A3). auto.
    + intros v Hv. apply in_map. apply in_seq. unfold bv_ok in Hv. lia.
    + exact Hc.
    + intros v _. apply corner_radius; [lra|]. intros i Hi. rewrite !vnth_real. apply Bs, Hi.
    + exact c6.
    + apply Req_le. cbn [INR]. field.
Qed.
Print Assumptions C82_cuboid.

(** A right-handed cuboid that is not too flat for the precision: the facets and the
    normals of facets and vertices point away from the centre. *)
Theorem C82_cuboid_outward :
  forall p e Hp He, (2 < p)%Z -> forall f g h pi,
  let S := IEEE p e Hp He f g h pi in
  forall (L : Linal S) W dbg self SZ (k K : Z) (o0 d0 : point S) (o x y z : vec (binary_float p e) 3) (A M t s : R),
    (36 < W)%nat -> equal_within L t -> equal_if_within L s -> (3 - e - p <= 2 * k)%Z ->
    finite_pt o -> finite_pt x -> finite_pt y -> finite_pt z ->
    (forall i, (i < 3)%nat -> Rabs (fval i o) <= M) ->
    (forall i, (i < 3)%nat -> Rabs (fval i x) <= A /\ Rabs (fval i y) <= A /\ Rabs (fval i z) <= A) ->
    4 * A + 2 * M <= bpow radix2 (e - 1) ->
    let c := uround p * (8 * A + 3 * M) in let D := rdot (rcross (vreal x) (vreal y)) (vreal z) in
    2 * c <= s -> 8 * (A * A) * (2 * c + t + bpow radix2 k) <= D -> 0 < A ->
    288 * (A * A) * c <= D -> bpow radix2 25 * uround p * ((A * A * A) * (A * A * A)) <= D * D -> scale_frame p e K (3 * A) (D / 2) ->
    let centre := cuboid_point (vreal o) (vreal x) (vreal y) (vreal z) (1/2) (1/2) (1/2) in
    exists m, mb_cuboid L W dbg self SZ o0 d0 (@mkCuboid S o x y z) = Ok m /\ length (m_facets m) = 12%nat /\ length (m_points m) = 8%nat /\
      float_outward self m centre /\ float_vertices_outward L self m centre.
Proof.
  intros p e Hp He H2 f g h pi S L W dbg self SZ k K o0 d0 o x y z A M t s HW HL HS Hk Fo Fx Fy Fz Bo Bs HAM c D Hs Hd A0 Hc1 Hu1 Hfr centre.
  assert (M0 : 0 <= M) by (eapply Rle_trans; [apply Rabs_pos|apply (Bo 0%nat); lia]).
  pose proof (ew_slack _ _ HL) as t0. pose proof (bpow_gt_0 radix2 k) as k0. pose proof (@u_pos p) as u0.
  assert (c0 : 0 <= c) by (unfold c; apply Rmult_le_pos; lra).
  assert (AA : 0 < A * A) by (apply Rmult_lt_0_compat; exact A0).
  assert (D0 : 0 < D) by (eapply Rlt_le_trans; [|exact Hd]; apply Rmult_lt_0_compat; lra).
  assert (Hd' : 8 * (A * A) * (2 * c + t + bpow radix2 k) <= Rabs D) by (rewrite Rabs_right by lra; exact Hd).
  destruct (cuboid_weld H2 f g h pi o x y z (vreal o) (vreal x) (vreal y) (vreal z) A M (near_self o M Fo Bo) (near_self x A Fx (fun i Hi => proj1 (Bs i Hi)))
    (near_self y A Fy (fun i Hi => proj1 (proj2 (Bs i Hi)))) (near_self z A Fz (fun i Hi => proj2 (proj2 (Bs i Hi)))) A0 M0 HAM L t s HL HS k Hk Hs Hd' W dbg self SZ HW)
    as (m & pos & E & (V1 & V2 & V3 & V4 & V5 & V6) & Hw & Hnd & HG & Hc).
  assert (V7 : length (m_points m) = 8%nat) by (rewrite (Permutation_length V3); reflexivity).
  exists m. split; [exact (mb_cuboid_ok L W dbg self SZ o0 d0 _ m E)|]. split; [exact V6|]. split; [exact V7|].
  assert (AAA : 0 < A * A * A) by (apply Rmult_lt_0_compat; assumption).
  assert (HD8 : D <= 8 * (A * A * A)).
  { assert (Nx : rnorm (vreal x) <= 2 * A) by (apply norm_of_comps; intros i Hi; rewrite vnth_real; apply Bs, Hi).
    assert (Ny : rnorm (vreal y) <= 2 * A) by (apply norm_of_comps; intros i Hi; rewrite vnth_real; apply Bs, Hi).
    assert (Nz : rnorm (vreal z) <= 2 * A) by (apply norm_of_comps; intros i Hi; rewrite vnth_real; apply Bs, Hi).
    pose proof (det_le (vreal x) (vreal y) (vreal z)) as HD. change (Rabs D <= rnorm (vreal x) * rnorm (vreal y) * rnorm (vreal z)) in HD.
    pose proof (rnorm_nonneg (vreal x)) as X0. pose proof (rnorm_nonneg (vreal y)) as Y0. pose proof (rnorm_nonneg (vreal z)) as Z0.
    pose proof (Rle_abs D) as DA. eapply Rle_trans; [exact DA|]. eapply Rle_trans; [exact HD|]. replace (8 * (A * A * A)) with (2 * A * (2 * A) * (2 * A)) by ring.
    apply Rmult_le_compat; try assumption; [apply Rmult_le_pos; assumption|]. apply Rmult_le_compat; assumption. }
  (* the ratio of the volume to that of the enclosing cube *)
  set (Q := D / (A * A * A)). assert (EQ : D = Q * (A * A * A)) by (unfold Q; field; lra).
  assert (Q0 : 0 < Q) by (unfold Q; apply Rdiv_lt_0_compat; lra).
  assert (Q8 : Q <= 8) by (apply Rmult_le_reg_r with (A * A * A); [exact AAA|rewrite <- EQ; exact HD8]).
  assert (E25 : bpow radix2 25 = 33554432) by (cbn; lra).
  assert (QQ : 33554432 * uround p <= Q * Q).
  { apply Rmult_le_reg_r with (A * A * A * (A * A * A)); [apply Rmult_lt_0_compat; assumption|].
    rewrite E25, EQ in Hu1. replace (Q * Q * (A * A * A * (A * A * A))) with (Q * (A * A * A) * (Q * (A * A * A))) by ring. exact Hu1. }
  assert (Q8' : Q * Q <= 8 * Q) by (apply Rmult_le_compat_r; lra).
  assert (uQ : 4194304 * uround p <= Q) by lra.
  assert (Hrd : ready L self m centre (3 * A) c (D / 2) K 12).
  { apply (mk_ready f g h pi L self (fun q => In q (map pos (seq 0 8))) HG btris pos m bv_ok (bpos (vreal o) (vreal x) (vreal y) (vreal z))).
    - reflexivity.
    - exact Hw.
    - intros i j l Hin. destruct (corners_in _ _ btri_corner i j l Hin) as (A1 & A2 & A3). auto.
    - intros v Hv. apply in_map. apply in_seq. unfold bv_ok in Hv. lia.
    - exact Hc.
    - intros v _. apply corner_radius; [lra|]. intros i Hi. rewrite !vnth_real. apply Bs, Hi.
    - intros i j l Hin. apply Req_le. symmetry. exact (corner_sixvol (vreal o) (vreal x) (vreal y) (vreal z) i j l Hin).
    - lra.
    - replace (16 * (3 * A * (3 * A)) * c) with (288 * (A * A) * c / 2) by field. lra.
    - replace (500 * uround p * (3 * A * (3 * A) * (3 * A))) with (13500 * uround p * (A * A * A)) by ring.
      rewrite EQ. replace (Q * (A * A * A) / 2) with (Q / 2 * (A * A * A)) by field. apply Rmult_le_compat_r; lra.
    - lra.
    - exact Hfr. }
  split; [exact (ready_outward f g h pi L self m _ _ _ _ _ _ Hrd)|].
  assert (mu0 : 0 < Q / 648) by lra.
  apply (ready_vertices f g h pi L self m _ _ _ _ _ _ (Q / 648) Hrd mu0).
  - rewrite EQ. right. field.
  - cbn [Nat.mul Nat.add]. rewrite INR_IZR_INZ. cbn [Z.of_nat Pos.of_succ_nat Pos.succ]. lra.
  - cbn [Nat.mul Nat.add]. rewrite INR_IZR_INZ. cbn [Z.of_nat Pos.of_succ_nat Pos.succ].
    assert (I : 36 * uround p / (Q / 648) <= 23328 / 33554432 * Q).
    { replace (36 * uround p / (Q / 648)) with (23328 * uround p * / Q) by (field; lra). apply Rmult_le_reg_r with Q; [exact Q0|].
      rewrite Rmult_assoc, Rinv_l, Rmult_1_r by lra. lra. }
    lra.
Qed.
Print Assumptions C82_cuboid_outward.

(** The comparison of all coordinates up to [x], as in [tolvec_linal], identifies points
    up to [x] apart and none further apart than the next larger number. *)
Lemma sub_small {p e} {Hp : Prec_gt_0 p} {He : Prec_lt_emax p e} (a b x : binary_float p e) : is_finite a = true -> is_finite b = true -> is_finite x = true ->
  Bleb (Babs (@Bminus p e Hp He mode_NE a b)) x = true <-> Rabs (rndf p e (B2R a - B2R b)) <= B2R x.
Proof.
  intros Fa Fb Fx. split.
  - intros H.
    assert (F : is_finite (@Bminus p e Hp He mode_NE a b) = true).
    { destruct (Bminus mode_NE a b) as [s|s| |s m ee Hb]; try reflexivity; destruct x as [s'|s'| |s' m' ee' Hb']; try discriminate; destruct s, s'; discriminate. }
    rewrite Bleb_correct in H by (try rewrite is_finite_Babs; assumption). rewrite B2R_Babs in H. destruct (Rle_bool_spec (Rabs (B2R (@Bminus p e Hp He mode_NE a b))) (B2R x)) as [H'|]; [|discriminate].
    pose proof (Bminus_correct p e Hp He mode_NE a b Fa Fb) as K. destruct (Rlt_bool _ _).
    + rewrite (proj1 K) in H'. exact H'.
    + exfalso. destruct K as (K & _). unfold binary_overflow in K. cbn [overflow_to_inf] in K. destruct (@Bminus p e Hp He mode_NE a b); discriminate.
  - intros H. destruct (@sub_ok p e Hp He a b Fa Fb) as (F & E).
    { eapply Rle_lt_trans; [exact H|]. eapply Rle_lt_trans; [apply Rle_abs|apply abs_B2R_lt_emax]. }
    rewrite Bleb_correct by (try rewrite is_finite_Babs; assumption). rewrite B2R_Babs, E. apply Rle_bool_true. exact H.
Qed.
Theorem C82_tolerance :
  forall p e Hp He f g h pi (x : binary_float p e), is_finite x = true -> 0 <= B2R x ->
  let S := IEEE p e Hp He f g h pi in
    equal_if_within (tolvec_linal S x) (B2R x) /\ equal_within (tolvec_linal S x) (succ radix2 (FLT_exp (3 - e - p) p) (B2R x)).
Proof.
  intros p e Hp He f g h pi x Fx Hx S.
  assert (V : forall n (v w : vec (binary_float p e) n), finite_pt v -> finite_pt w ->
    (veq (tolvec_linal S x) v w = true <-> forall i, (i < n)%nat -> Rabs (rndf p e (fval i v - fval i w)) <= B2R x)).
  { intros n v w Fv Fw. change (veq (tolvec_linal S x) v w) with (vall2 (fun a b : binary_float p e => Bleb (Babs (@Bminus p e Hp He mode_NE a b)) x) v w).
    rewrite (vall2_true (B754_zero false) (B754_zero false)). split; intros H i Hi; apply (sub_small _ _ x (Fv i Hi) (Fw i Hi) Fx); apply H, Hi. }
  assert (G : generic_format radix2 (FLT_exp (3 - e - p) p) (B2R x)) by apply (generic_format_B2R p e).
  split.
  - intros n v w Fv Fw H. apply V; [exact Fv|exact Fw|]. intros i Hi.
    rewrite <- rnd_abs, <- (rnd_id (p := p) (e := e) (B2R x)) by exact G. apply rnd_le. apply H, Hi.
  - assert (Hlt : B2R x < succ radix2 (FLT_exp (3 - e - p) p) (B2R x)).
    { destruct (Req_dec (B2R x) 0) as [Z|Z]; [|apply succ_gt_id, Z]. rewrite Z, succ_0. rewrite ulp_FLT_0 by exact Hp. apply bpow_gt_0. }
    split; [lra| |].
    + intros n v Fv. apply V; [exact Fv|exact Fv|]. intros i Hi. unfold Rminus. rewrite Rplus_opp_r, rnd_0, Rabs_R0. exact Hx.
    + intros n v w Fv Fw H i Hi. pose proof (proj1 (V n v w Fv Fw) H i Hi) as K.
      destruct (Rle_lt_dec (Rabs (fval i v - fval i w)) (succ radix2 (FLT_exp (3 - e - p) p) (B2R x))) as [|N]; [assumption|exfalso].
      assert (Gs : generic_format radix2 (FLT_exp (3 - e - p) p) (succ radix2 (FLT_exp (3 - e - p) p) (B2R x))) by (apply generic_format_succ; [apply FLT_exp_valid; exact Hp|exact G]).
      rewrite <- rnd_abs in K. assert (L : rndf p e (succ radix2 (FLT_exp (3 - e - p) p) (B2R x)) <= rndf p e (Rabs (fval i v - fval i w))) by (apply rnd_le; lra).
      rewrite rnd_id in L by exact Gs. lra.
Qed.
Print Assumptions C82_tolerance.

(** With this comparison: a cuboid whose corners are computed with errors below half the
    tolerance [x], and which is thick enough compared with the tolerance. *)
Corollary C82_cuboid_tolerance :
  forall p e Hp He, (2 < p)%Z -> forall f g h pi,
  let S := IEEE p e Hp He f g h pi in
  forall W dbg self SZ (k : Z) (o0 d0 : point S) (w : binary_float p e) (o x y z : vec (binary_float p e) 3) (A M : R),
    (36 < W)%nat -> (3 - e - p <= 2 * k)%Z -> is_finite w = true -> bpow radix2 k <= B2R w ->
    finite_pt o -> finite_pt x -> finite_pt y -> finite_pt z ->
    (forall i, (i < 3)%nat -> Rabs (fval i o) <= M) ->
    (forall i, (i < 3)%nat -> Rabs (fval i x) <= A /\ Rabs (fval i y) <= A /\ Rabs (fval i z) <= A) -> 0 < A ->
    4 * A + 2 * M <= bpow radix2 (e - 1) ->
    let c := uround p * (8 * A + 3 * M) in let D := rdot (rcross (vreal x) (vreal y)) (vreal z) in
    2 * c <= B2R w -> 32 * (A * A) * B2R w <= Rabs D ->
    exists m, mb_cuboid (tolvec_linal S w) W dbg self SZ o0 d0 (@mkCuboid S o x y z) = Ok m /\
      closed_on W dbg self (m_points m) 12 m /\ length (m_points m) = 8%nat /\ NoDup (m_points m) /\
      (forall q, cuboid_corner (vreal o) (vreal x) (vreal y) (vreal z) q -> exists v : vec (binary_float p e) 3, In v (m_points m) /\ close_to c v q) /\
      (forall v : vec (binary_float p e) 3, In v (m_points m) -> exists q, cuboid_corner (vreal o) (vreal x) (vreal y) (vreal z) q /\ close_to c v q) /\
      forall a, Rabs (float_volume a m - D) <= 162 * (A * A) * c.
Proof.
  intros p e Hp He H2 f g h pi S W dbg self SZ k o0 d0 w o x y z A M HW Hk Fw Hkw Fo Fx Fy Fz Bo Bs A0 HAM c D Hc HD.
  pose proof (bpow_gt_0 radix2 k) as k0. assert (w0 : 0 < B2R w) by lra.
  destruct (C82_tolerance p e Hp He f g h pi w Fw ltac:(lra)) as (T1 & T2). fold S in T1, T2.
  assert (G : generic_format radix2 (FLT_exp (3 - e - p) p) (B2R w)) by apply (generic_format_B2R p e).
  assert (Hs : succ radix2 (FLT_exp (3 - e - p) p) (B2R w) <= 2 * B2R w).
  { rewrite succ_eq_pos by lra. assert (U : ulp radix2 (FLT_exp (3 - e - p) p) (B2R w) <= B2R w) by (apply ulp_le_id; assumption). lra. }
  apply (C82_cuboid p e Hp He H2 f g h pi (tolvec_linal S w) W dbg self SZ k o0 d0 o x y z A M _ (B2R w) HW T2 T1 Hk Fo Fx Fy Fz Bo Bs HAM Hc); [|exact A0].
  eapply Rle_trans; [|exact HD]. replace (32 * (A * A) * B2R w) with (8 * (A * A) * (4 * B2R w)) by ring.
  apply Rmult_le_compat_l; [assert (0 < A * A) by (apply Rmult_lt_0_compat; exact A0); lra|]. fold c. lra.
Qed.
Print Assumptions C82_cuboid_tolerance.

(** ** The turned cube of C61, on which the exact comparison fails: with the tolerance
    [2^-30] the hypotheses are met, and the mesh is closed. *)
Lemma quot_near f g h pi (n d : Z) : (Z.abs n < 2 ^ 53)%Z -> (Z.abs d < 2 ^ 53)%Z -> (Z.abs n < Z.abs d)%Z ->
  is_finite (b64_quot f g h pi n d) = true /\ Rabs (B2R (b64_quot f g h pi n d) - IZR n / IZR d) <= bpow radix2 (-52).
Proof.
  intros Hn Hd Hnd. destruct (b64_small n Hn) as (Fn & En). destruct (b64_small d Hd) as (Fd & Ed).
  assert (d1 : 1 <= Rabs (IZR d)) by (rewrite <- abs_IZR; apply IZR_le; lia).
  assert (d0 : IZR d <> 0) by (intros E; rewrite E, Rabs_R0 in d1; lra).
  assert (Q : Rabs (IZR n / IZR d) <= 1).
  { unfold Rdiv. rewrite Rabs_mult, Rabs_inv. apply Rmult_le_reg_r with (Rabs (IZR d)); [lra|]. rewrite Rmult_assoc, Rinv_l, Rmult_1_r, Rmult_1_l by lra.
    rewrite <- !abs_IZR. apply IZR_le. lia. }
  assert (E52 : bpow radix2 (-52) = 2 * uround 53) by (unfold uround; change 2 with (bpow radix2 1); rewrite <- bpow_plus; reflexivity).
  assert (N : Rabs (rndf 53 1024 (IZR n / IZR d) - IZR n / IZR d) <= bpow radix2 (-52)).
  { apply (@rnd_close 53 1024 prec53 (IZR n / IZR d) (IZR n / IZR d) 0 1).
    - unfold Rminus. rewrite Rplus_opp_r, Rabs_R0. lra.
    - exact Q.
    - assert (@eta 53 1024 <= uround 53) by (unfold eta, uround; apply bpow_le; lia). rewrite E52. lra. }
  destruct (@div_ok 53 1024 prec53 prec_emax64 (b64_ofZ n) (b64_ofZ d) Fn) as (F & E).
  - rewrite Ed. exact d0.
  - rewrite En, Ed. assert (B : Rabs (rndf 53 1024 (IZR n / IZR d)) <= 2).
    { replace (rndf 53 1024 (IZR n / IZR d)) with ((rndf 53 1024 (IZR n / IZR d) - IZR n / IZR d) + IZR n / IZR d) by ring.
      eapply Rle_trans; [apply Rabs_triang|]. assert (bpow radix2 (-52) <= bpow radix2 0) by (apply bpow_le; lia). change (bpow radix2 0) with 1 in H. lra. }
    eapply Rle_lt_trans; [exact B|]. change 2 with (bpow radix2 1). apply bpow_lt. lia.
  - change (b64_quot f g h pi n d) with (@Bdiv 53 1024 prec53 prec_emax64 mode_NE (b64_ofZ n) (b64_ofZ d)). split; [exact F|]. rewrite E, En, Ed. exact N.
Qed.
Lemma turned_facts f g h pi : let c := turned_cube f g h pi in
  finite_pt (cu_origin c : vec b64 3) /\ finite_pt (cu_x c : vec b64 3) /\ finite_pt (cu_y c : vec b64 3) /\ finite_pt (cu_z c : vec b64 3) /\
  (forall i, (i < 3)%nat -> Rabs (fval i (cu_origin c : vec b64 3)) <= 3) /\
  (forall i, (i < 3)%nat -> Rabs (fval i (cu_x c : vec b64 3)) <= 1 /\ Rabs (fval i (cu_y c : vec b64 3)) <= 1 /\ Rabs (fval i (cu_z c : vec b64 3)) <= 1) /\
  Rabs (rdot (rcross (vreal (cu_x c : vec b64 3)) (vreal (cu_y c : vec b64 3))) (vreal (cu_z c : vec b64 3)) - 1) <= bpow radix2 (-40).
Proof.
  intros c. set (D := rdot _ _).
  destruct (b64_small 1 ltac:(lia)) as (F1 & E1). destruct (b64_small 2 ltac:(lia)) as (F2 & E2). destruct (b64_small 3 ltac:(lia)) as (F3 & E3).
  destruct (quot_near f g h pi 6 10 ltac:(lia) ltac:(lia) ltac:(lia)) as (F6 & N6).
  destruct (quot_near f g h pi 8 10 ltac:(lia) ltac:(lia) ltac:(lia)) as (F8 & N8).
  destruct (quot_near f g h pi (-8) 10 ltac:(lia) ltac:(lia) ltac:(lia)) as (F8' & N8').
  set (q6 := b64_quot f g h pi 6 10) in *. set (q8 := b64_quot f g h pi 8 10) in *. set (q8' := b64_quot f g h pi (-8) 10) in *.
  set (a := B2R q6) in *. set (b := B2R q8) in *. set (b' := B2R q8') in *.
  assert (ED : D = a * a - b * b').
  { transitivity ((b * 0 - 0 * a) * 0 + ((0 * b' - a * 0) * 0 + ((a * a - b * b') * B2R (b64_ofZ 1) + 0))); [reflexivity|]. rewrite E1. ring. }
  assert (d52 : 4096 * bpow radix2 (-52) = bpow radix2 (-40)) by (change 4096 with (bpow radix2 12); rewrite <- bpow_plus; reflexivity).
  assert (p52 : 0 < bpow radix2 (-52)) by apply bpow_gt_0.
  assert (s52 : bpow radix2 (-52) <= / 1024) by (change (/ 1024) with (bpow radix2 (-10)); apply bpow_le; lia).
  apply Rabs_le_inv in N6, N8, N8'.
  split; [intros [|[|[|i]]] Hi; [exact F1|exact F2|exact F3|lia]|].
  split; [intros [|[|[|i]]] Hi; [exact F6|exact F8|reflexivity|lia]|].
  split; [intros [|[|[|i]]] Hi; [exact F8'|exact F6|reflexivity|lia]|].
  split; [intros [|[|[|i]]] Hi; [reflexivity|reflexivity|exact F1|lia]|].
  split.
  { intros [|[|[|i]]] Hi; [| | |lia]; [change (Rabs (B2R (b64_ofZ 1)) <= 3); rewrite E1|change (Rabs (B2R (b64_ofZ 2)) <= 3); rewrite E2|change (Rabs (B2R (b64_ofZ 3)) <= 3); rewrite E3]; apply Rabs_le; lra. }
  split.
  { intros [|[|[|i]]] Hi; [| | |lia].
    - change (Rabs a <= 1 /\ Rabs b' <= 1 /\ Rabs 0 <= 1). repeat split; apply Rabs_le; lra.
    - change (Rabs b <= 1 /\ Rabs a <= 1 /\ Rabs 0 <= 1). repeat split; apply Rabs_le; lra.
    - change (Rabs 0 <= 1 /\ Rabs 0 <= 1 /\ Rabs (B2R (b64_ofZ 1)) <= 1). rewrite E1. repeat split; apply Rabs_le; lra. }
  rewrite ED, <- d52. set (u := bpow radix2 (-52)) in *. set (r := a - 6 / 10). set (q := b - 8 / 10). set (q' := b' - -8 / 10).
  replace (a * a - b * b' - 1) with (12 / 10 * r + r * r + 8 / 10 * q - 8 / 10 * q' - q * q') by (unfold r, q, q'; field).
  assert (Hr : Rabs r <= u) by (apply Rabs_le; unfold r; lra). assert (Hq : Rabs q <= u) by (apply Rabs_le; unfold q; lra). assert (Hq' : Rabs q' <= u) by (apply Rabs_le; unfold q'; lra).
  assert (R2 : Rabs (r * r) <= u * 1) by (rewrite Rabs_mult; apply Rmult_le_compat; try apply Rabs_pos; lra).
  assert (Q2 : Rabs (q * q') <= u * 1) by (rewrite Rabs_mult; apply Rmult_le_compat; try apply Rabs_pos; lra).
  apply Rabs_le_inv in Hr, Hq, Hq', R2, Q2. apply Rabs_le. lra.
Qed.
Example C82_example :
  forall f g h pi, let S := B64 f g h pi in let w := b64_pow 1 (-30) in
  forall o0 d0 : point S, let c := turned_cube f g h pi in let D := rdot (rcross (vreal (cu_x c : vec b64 3)) (vreal (cu_y c : vec b64 3))) (vreal (cu_z c : vec b64 3)) in
    32 * (1 * 1) * B2R w <= Rabs D /\ Rabs (D - 1) <= bpow radix2 (-40) /\
    forall dbg, exists m, mb_cuboid (tolvec_linal S w) 256 dbg 7%nat 256 o0 d0 c = Ok m /\
      closed_on 256 dbg 7%nat (m_points m) 12 m /\ length (m_points m) = 8%nat /\
      forall a, Rabs (float_volume a m - 1) <= bpow radix2 (-39).
Proof.
  intros f g h pi S w o0 d0 c D.
  destruct (turned_facts f g h pi) as (Fo & Fx & Fy & Fz & Bo & Bs & HD). fold c in Fo, Fx, Fy, Fz, Bo, Bs, HD. fold D in HD.
  destruct (@pow_spec 53 1024 prec53 prec_emax64 1 (-30) eq_refl ltac:(lia) ltac:(lia)) as [Fw Ew]. change (ieee_pow 53 1024 prec53 prec_emax64 1 (-30)) with w in Fw, Ew.
  rewrite Rmult_1_l in Ew.
  assert (d40 : bpow radix2 (-40) <= / 1024) by (change (/ 1024) with (bpow radix2 (-10)); apply bpow_le; lia).
  assert (d30 : bpow radix2 (-30) <= / 1024) by (change (/ 1024) with (bpow radix2 (-10)); apply bpow_le; lia).
  assert (HD' : 32 * (1 * 1) * B2R w <= Rabs D).
  { rewrite Ew. apply Rabs_le_inv in HD. rewrite Rabs_right; lra. }
  split; [exact HD'|]. split; [exact HD|]. intros dbg.
  assert (Eu : 4194304 * uround 53 * 2 = bpow radix2 (-30)) by (unfold uround; change 4194304 with (bpow radix2 22); replace 2 with (bpow radix2 1) by reflexivity; rewrite <- !bpow_plus; reflexivity).
  assert (u0 : 0 < uround 53) by apply bpow_gt_0.
  destruct (C82_cuboid_tolerance 53 1024 prec53 prec_emax64 eq_refl f g h pi 256 dbg 7%nat 256 (-31) o0 d0 w (cu_origin c) (cu_x c) (cu_y c) (cu_z c) 1 3
    ltac:(lia) ltac:(lia) Fw ltac:(rewrite Ew; apply bpow_le; lia) Fo Fx Fy Fz Bo Bs ltac:(lra)) as (m & Em & Hcl & Hl & _ & _ & _ & V).
  - apply Rle_trans with (bpow radix2 4); [cbn; lra|apply bpow_le; lia].
  - rewrite Ew, <- Eu. lra.
  - exact HD'.
  - exists m. split; [exact Em|]. split; [exact Hcl|]. split; [exact Hl|]. intros v. specialize (V v).
    change (Rabs (float_volume v m - D) <= 162 * (1 * 1) * (uround 53 * (8 * 1 + 3 * 3))) in V.
    assert (E39 : bpow radix2 (-39) = 2 * bpow radix2 (-40)) by (change 2 with (bpow radix2 1); rewrite <- bpow_plus; reflexivity).
    assert (E53 : bpow radix2 (-40) = 8192 * uround 53) by (unfold uround; change 8192 with (bpow radix2 13); rewrite <- bpow_plus; reflexivity).
    apply Rabs_le_inv in HD, V. apply Rabs_le. lra.
Qed.

(** the turned cube also meets the further hypotheses of [C82_cuboid_outward] *)
Example C82_outward_example :
  forall f g h pi, let S := B64 f g h pi in
  forall (o0 d0 : point S) dbg, let w := b64_pow 1 (-30) in let L := tolvec_linal S w in let c := turned_cube f g h pi in
    exists m, mb_cuboid L 256 dbg 7%nat 256 o0 d0 c = Ok m /\ length (m_facets m) = 12%nat /\ length (m_points m) = 8%nat /\
      let centre := cuboid_point (vreal (cu_origin c : vec b64 3)) (vreal (cu_x c : vec b64 3)) (vreal (cu_y c : vec b64 3)) (vreal (cu_z c : vec b64 3)) (1/2) (1/2) (1/2) in
      float_outward 7%nat m centre /\ float_vertices_outward L 7%nat m centre.
Proof.
  intros f g h pi S o0 d0 dbg w L c.
  destruct (turned_facts f g h pi) as (Fo & Fx & Fy & Fz & Bo & Bs & HD). fold c in Fo, Fx, Fy, Fz, Bo, Bs, HD.
  destruct (@pow_spec 53 1024 prec53 prec_emax64 1 (-30) eq_refl ltac:(lia) ltac:(lia)) as [Fw Ew]. change (ieee_pow 53 1024 prec53 prec_emax64 1 (-30)) with w in Fw, Ew.
  rewrite Rmult_1_l in Ew.
  assert (d40 : bpow radix2 (-40) <= / 1024) by (change (/ 1024) with (bpow radix2 (-10)); apply bpow_le; lia).
  assert (d30 : 0 < bpow radix2 (-30) <= / 1024) by (split; [apply bpow_gt_0|change (/ 1024) with (bpow radix2 (-10)); apply bpow_le; lia]).
  assert (Eu : 4194304 * uround 53 * 2 = bpow radix2 (-30)) by (unfold uround; change 4194304 with (bpow radix2 22); replace 2 with (bpow radix2 1) by reflexivity; rewrite <- !bpow_plus; reflexivity).
  assert (E25 : bpow radix2 25 * uround 53 = bpow radix2 (-28)) by (unfold uround; rewrite <- bpow_plus; reflexivity).
  assert (d28 : bpow radix2 (-28) <= / 1024) by (change (/ 1024) with (bpow radix2 (-10)); apply bpow_le; lia).
  assert (u0 : 0 < uround 53) by apply bpow_gt_0.
  destruct (C82_tolerance 53 1024 prec53 prec_emax64 f g h pi w Fw ltac:(rewrite Ew; lra)) as (T1 & T2).
  assert (G : generic_format radix2 (FLT_exp (3 - 1024 - 53) 53) (B2R w)) by apply (generic_format_B2R 53 1024).
  assert (Hs : succ radix2 (FLT_exp (3 - 1024 - 53) 53) (B2R w) <= 2 * B2R w).
  { rewrite succ_eq_pos by (rewrite Ew; lra). assert (U : ulp radix2 (FLT_exp (3 - 1024 - 53) 53) (B2R w) <= B2R w) by (apply ulp_le_id; [rewrite Ew; lra|exact G]). lra. }
  assert (E31 : 2 * bpow radix2 (-31) = bpow radix2 (-30)) by (change 2 with (bpow radix2 1); rewrite <- bpow_plus; reflexivity).
  apply Rabs_le_inv in HD. rewrite Ew in Hs.
  apply (C82_cuboid_outward 53 1024 prec53 prec_emax64 eq_refl f g h pi L 256 dbg 7%nat 256 (-31) 7 o0 d0 (cu_origin c) (cu_x c) (cu_y c) (cu_z c) 1 3 _ (B2R w) ltac:(lia) T2 T1 ltac:(lia) Fo Fx Fy Fz Bo Bs);
    try match goal with |- context [rdot (rcross ?X ?Y) ?Z] => set (D := rdot (rcross X Y) Z) in * end.
  - apply Rle_trans with (bpow radix2 4); [cbn; lra|apply bpow_le; lia].
  - rewrite Ew, <- Eu. lra.
  - rewrite Ew. lra.
  - lra.
  - lra.
  - rewrite E25. assert (Q : (1 / 2) * (1 / 2) <= D * D) by (apply Rmult_le_compat; lra). lra.
  - split; [lia|]. split; [lia|]. split; [cbn; lra|]. replace (bpow radix2 (- (7))) with (/ 128) by (cbn; lra). lra.
Qed.

(** Welding integers: two triangles that share an edge only up to 1 in one coordinate; the
    comparison sorts their corners into four groups. *)
Example C82_weld_example :
  let L := tolvec_linal ZS 1%Z in
  let ts : list (triangle ZS) := [(mk3 0 0 0, mk3 10 0 0, mk3 0 10 0); (mk3 0 10 1, mk3 10 0 0, mk3 9 9 9)]%Z in
  groups L (points_of ts) /\ welded L ts = [(mk3 0 0 0, mk3 10 0 0, mk3 0 10 0); (mk3 0 10 0, mk3 10 0 0, mk3 9 9 9)]%Z.
Proof.
  intros L ts. split; [|reflexivity]. split; [|split].
  - intros x Hx. cbn in Hx. repeat destruct Hx as [<-|Hx]; try reflexivity; contradiction.
  - intros x y Hx Hy. cbn in Hx, Hy. repeat destruct Hx as [<-|Hx]; try contradiction; repeat destruct Hy as [<-|Hy]; try contradiction; vm_compute; auto.
  - intros x y z Hx Hy Hz. cbn in Hx, Hy, Hz. repeat destruct Hx as [<-|Hx]; try contradiction; repeat destruct Hy as [<-|Hy]; try contradiction; repeat destruct Hz as [<-|Hz]; try contradiction; vm_compute; auto.
Qed.
