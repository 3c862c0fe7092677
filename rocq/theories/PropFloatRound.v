(** * Property theorems: cones and cylinders in floating point with accurate
    trigonometric functions (C70) *)

From Coq Require Import List Arith Bool Lia Permutation ZArith Reals Lra.
From Flocq Require Import Core BinarySingleNaN.
From Verif Require Import Scalar Linal Result SpecReal VecR ModelKdTree SpecKdTree SpecTransform SpecIEEE SpecFloatErr SpecFloatTess VecLemmas
  ModelShapes ModelTransform ModelMesh SpecMesh ModelTess SpecTess ProofTessComb ProofTessConn ProofTessMesh ProofTessSphere ProofTessRound
  ProofRound ProofIEEE ProofFloatErr ProofFloatDist ProofFloatTrig ProofTessSafe ProofMeshIEEE ProofFloatTess ProofFloatRound PropMeshIEEE PropFloatTess.
Import ListNotations.
Local Open Scope R_scope.

(** what the condition on the radius says about the parameters *)
Lemma round_setup p e (Hp : Prec_gt_0 p) (He : Prec_lt_emax p e) f g pi (k : Z) (na : nat) (d t M r l : R) :
  (2 < p)%Z -> @trig_accurate p e d f g pi -> (3 <= na)%nat -> 0 <= t -> 0 <= M -> 0 < r -> 0 < l -> (3 - e - p <= 2 * k)%Z ->
  let kap := bpow radix2 k in let rho := r + l in
  let c := 150 * (d * rho) + 10 * kap + 4 * (uround p * M) + t * (1 + 3 * rho) in
  INR na * (2 * c + t + kap) <= r ->
  d <= 1 / 900 /\ 60 * kap <= rho /\ INR na * d <= 1 / 64 /\ @eta p e <= d * rho /\ 0 < 2 * c + t + kap /\ 2 * sqrt (3 * @eta p e) <= 3 * kap.
Proof.
  intros H2 Ht Hna t0 M0 Hr Hl Hk kap rho c H. pose proof (@u_pos p) as Hu. pose proof (ta_round _ _ _ _ Ht) as Hud.
  assert (N3 : 3 <= INR na) by (apply (le_INR 3) in Hna; cbn in Hna; lra).
  pose proof (bpow_gt_0 radix2 k) as K0. fold kap in K0.
  assert (rho0 : 0 < rho) by (unfold rho; lra). assert (dr : 0 < d * rho) by (apply Rmult_lt_0_compat; lra).
  assert (uM : 0 <= uround p * M) by (apply Rmult_le_pos; lra). assert (tr : 0 <= t * (1 + 3 * rho)) by (apply Rmult_le_pos; lra).
  assert (c0 : 150 * (d * rho) + 10 * kap <= c) by (unfold c; lra).
  assert (A : INR na * (300 * (d * rho)) <= r) by (eapply Rle_trans; [|exact H]; apply Rmult_le_compat_l; lra).
  assert (B : 3 * (20 * kap) <= r).
  { apply Rle_trans with (INR na * (2 * c + t + kap)); [|exact H]. apply Rmult_le_compat; lra. }
  assert (D : INR na * d <= 1 / 300).
  { apply Rmult_le_reg_r with (300 * rho); [lra|]. unfold rho in *. lra. }
  assert (D3 : 3 * d <= INR na * d) by (apply Rmult_le_compat_r; lra).
  split; [lra|]. split; [unfold rho; lra|]. split; [lra|]. split; [|split; [lra|]].
  - apply Rle_trans with (uround p * rho); [|apply Rmult_le_compat_r; lra].
    apply Rle_trans with (uround p * bpow radix2 (2 - e)).
    + unfold eta, uround. rewrite <- bpow_plus. apply bpow_le. lia.
    + apply Rmult_le_compat_l; [lra|]. apply Rle_trans with kap; [apply bpow_le; pose proof (@emax_pos p e Hp He); lia|unfold rho; lra].
  - assert (E : 3 * @eta p e <= 3 / 2 * kap * (3 / 2 * kap)).
    { assert (2 * @eta p e <= kap * kap); [|pose proof (@eta_pos p e); lra].
      unfold eta, kap. replace (2 * bpow radix2 (2 - e - p)) with (bpow radix2 (1 + (2 - e - p))) by (rewrite bpow_plus; reflexivity).
      rewrite <- bpow_plus. apply bpow_le. lia. }
    apply sqrt_le_1_alt in E. rewrite sqrt_square in E by lra. lra.
Qed.

(** the points computed for the vertices *)
Lemma cone_setup :
  forall p e Hp He, (2 < p)%Z -> forall f g h pi,
  let S := IEEE p e Hp He f g h pi in
  forall (L : Linal S) W (meq : hmat S -> hmat S -> bool) (rot_align : hvec S -> hvec S -> hmat S) (k : Z) (na : nat) (co : cone S) (A : vec (vec R 3) 3) (d t M : R),
    (3 <= na)%nat -> (6 * na < W)%nat ->
    trig_accurate d f g pi -> equal_within L t -> identity_within meq t -> (3 - e - p <= 2 * k)%Z ->
    let seg := co_segment co in
    let src := g_source seg : vec (binary_float p e) 3 in let tgt := g_target seg : vec (binary_float p e) 3 in
    let r := B2R (co_radius co : binary_float p e) in let l := rdist (vreal tgt) (vreal src) in
    in_reach tgt src -> (forall i, (i < 3)%nat -> Rabs (fval i src) <= M) -> M <= bpow radix2 (e - 4) ->
    is_finite (co_radius co : binary_float p e) = true -> 0 < r -> r + l <= bpow radix2 (e - 4) ->
    rotation_onto A (rdirection (rsub (vreal tgt) (vreal src))) ->
    rotation_within d A (rot_align (mk4 s0 s0 s1 s1) (to_hvec (segment_direction seg))) ->
    let c := 150 * (d * (r + l)) + 10 * bpow radix2 k + 4 * (uround p * M) + t * (1 + 3 * (r + l)) in
    INR na * (2 * c + t + bpow radix2 k) <= r -> 2 * (2 * c + t + bpow radix2 k) <= l ->
    let rp v := affine A (vreal src) (kpos na r l v) in let pts := cone_vertices meq rot_align na co in
    exists fp, pts = map fp (kvs na) /\ NoDup pts /\ well_separated k (fun x => In x pts) /\ veq_on L (fun x => In x pts) /\
    (forall v, In v (kvs na) -> close_to c (fp v : vec (binary_float p e) 3) (rp v)) /\
    (forall v w, In v (kvs na) -> In w (kvs na) -> v <> w -> exists i, (i < 3)%nat /\ 2 * c + t + bpow radix2 k <= Rabs (vnth 0 i (rp v) - vnth 0 i (rp w))) /\ 0 < l.
Proof.
  intros p e Hp He H2 f g h pi S L W meq rot_align k na co A d t M Hna HW Ht HL Hm Hk seg src tgt r l HR HsM HM Fr Hr Hre HA HX c Hs1 Hs2 rp pts.
  pose proof (ew_slack _ _ HL) as t0.
  assert (M0 : 0 <= M) by (eapply Rle_trans; [apply Rabs_pos|apply (HsM 0%nat); lia]).
  assert (l0 : 0 <= l) by apply rnorm_nonneg.
  assert (g0 : 0 < 2 * c + t + bpow radix2 k).
  { pose proof (bpow_gt_0 radix2 k). pose proof (@u_pos p). pose proof (ta_round _ _ _ _ Ht). assert (0 <= uround p * M) by (apply Rmult_le_pos; lra).
    assert (0 <= t * (1 + 3 * (r + l))) by (apply Rmult_le_pos; lra). assert (0 <= d * (r + l)) by (apply Rmult_le_pos; lra). unfold c. lra. }
  assert (Hl : 0 < l) by lra.
  destruct (round_setup p e Hp He f g pi k na d t M r l H2 Ht Hna t0 M0 Hr Hl Hk Hs1) as (Hd & Hkr & Hnd & Heta & _ & Hsq).
  set (rho := r + l) in *. set (kap := bpow radix2 k) in *. assert (Hk0 : 0 <= kap) by apply bpow_ge_0. assert (rho0 : 0 < rho) by (unfold rho; lra).
  pose proof (ta_round _ _ _ _ Ht) as Hud. pose proof (@u_pos p) as Hu.
  set (len := segment_length seg : binary_float p e).
  destruct (distance_err f g h pi 3 tgt src) as (Fl & _ & El); [cbn [INR]; lra|exact HR|].
  change (fin len) in Fl. change (@vlength S 3 (@vsub S 3 tgt src)) with len in El. fold l in El.
  assert (Hlen : Rabs (B2R len - l) <= 6 * (d * rho) + 3 * kap).
  { eapply Rle_trans; [exact El|]. assert (E3 : INR 3 = 3) by (cbn; ring). rewrite E3.
    assert (uround p * l <= d * rho) by (apply Rmult_le_compat; unfold rho; lra). lra. }
  destruct HR as (Ft & Fs & _).
  assert (Hlr : l <= rho) by (unfold rho; lra). assert (Hrr : r <= rho) by (unfold rho; lra).
  set (X := rot_align (mk4 s0 s0 s1 s1) (to_hvec (segment_direction seg))) in *.
  set (fp := fun v => place meq (@set_translation S X src) (kbase f g h pi na (co_radius co) len v)).
  assert (Hc : forall v, In v (kvs na) -> close_to c (fp v : vec (binary_float p e) 3) (rp v)).
  { intros v Hv. destruct (kbase_close H2 f g h pi d Ht Hd rho kap M rho0 Hre Heta Hk0 Hkr M0 na Hna Hnd (co_radius co) Fr Hr Hrr len l Fl l0 Hlr Hlen v (kvs_ok na v Hv)) as (B1 & B2).
    apply (place_close f g h pi d Ht Hd rho kap M rho0 Hre Heta Hk0 Hkr M0 HM meq X A src t); try assumption. apply HA. }
  assert (Ha : forall v w, In v (kvs na) -> In w (kvs na) -> v <> w ->
    exists i, (i < 3)%nat /\ 2 * c + t + bpow radix2 k <= Rabs (vnth 0 i (rp v) - vnth 0 i (rp w))).
  { intros v w Hv Hw Hne. apply (kpos_apart na Hna A (vreal src) (proj1 HA) r l _ g0 Hs1 Hs2 v w (kvs_ok na v Hv) (kvs_ok na w Hw) Hne). }
  assert (Ep : cone_vertices meq rot_align na co = map fp (kvs na)).
  { unfold cone_vertices, axis_placement. fold seg. fold X. exact (eq_trans (f_equal (map (place meq (@set_translation S X src))) (cone_base_map f g h pi na (co_radius co) len)) (map_map _ _ _)). }
  pose proof (fp_nodup f g h pi L t HL k kvert_dec (kvs na) fp _ c Hc Ha (kvs_nodup na)) as Hn.
  pose proof (fp_separated f g h pi L t HL k Hk kvert_dec (kvs na) fp _ c Hc Ha) as Hs.
  pose proof (fp_veq f g h pi L t HL k kvert_dec (kvs na) fp _ c Hc Ha) as Hv.
  exists fp. split; [exact Ep|]. split; [unfold pts; rewrite Ep; exact Hn|]. split; [unfold pts; rewrite Ep; exact Hs|]. split; [unfold pts; rewrite Ep; exact Hv|].
  split; [exact Hc|]. split; [exact Ha|exact Hl].
Qed.

(** ** C70: the cone.  [d] is the accuracy of cosine, sine, pi and of the matrix
    turning the z axis into the direction of the axis, [t] the tolerance of
    [operator==] on vectors and matrices, [M] bounds the coordinates of the centre
    of the base.  If the cone is not too small for the number of its vertices, and
    not near the largest numbers, the mesh is a closed surface whose vertices are
    one near each exact one: the two ends of the axis and the points of the rim. *)
Theorem C70_cone :
  forall p e Hp He, (2 < p)%Z -> forall f g h pi,
  let S := IEEE p e Hp He f g h pi in
  forall (L : Linal S) W meq dbg self SZ (rot_align : hvec S -> hvec S -> hmat S) (k : Z) (na : nat) (co : cone S) (A : vec (vec R 3) 3) (d t M : R),
    (3 <= na)%nat -> (6 * na < W)%nat ->
    trig_accurate d f g pi -> equal_within L t -> identity_within meq t -> (3 - e - p <= 2 * k)%Z ->
    let seg := co_segment co in
    let src := g_source seg : vec (binary_float p e) 3 in let tgt := g_target seg : vec (binary_float p e) 3 in
    let r := B2R (co_radius co : binary_float p e) in let l := rdist (vreal tgt) (vreal src) in
    in_reach tgt src -> (forall i, (i < 3)%nat -> Rabs (fval i src) <= M) -> M <= bpow radix2 (e - 4) ->
    is_finite (co_radius co : binary_float p e) = true -> 0 < r -> r + l <= bpow radix2 (e - 4) ->
    rotation_onto A (rdirection (rsub (vreal tgt) (vreal src))) ->
    rotation_within d A (rot_align (mk4 s0 s0 s1 s1) (to_hvec (segment_direction seg))) ->
    (dbg = true -> isZero L (leps L) (segment_length seg) = false /\ isEq L (leps L) (vlength (segment_direction seg)) s1 = true) ->
    let c := 150 * (d * (r + l)) + 10 * bpow radix2 k + 4 * (uround p * M) + t * (1 + 3 * (r + l)) in
    INR na * (2 * c + t + bpow radix2 k) <= r -> 2 * (2 * c + t + bpow radix2 k) <= l ->
    let vertex q := q = vreal src \/ q = vreal tgt \/ rim na A (vreal src) r q in
    exists m, mb_cone L W meq dbg self SZ rot_align na co = Ok (Some m) /\
      closed_on W dbg self (m_points m) (2 * na) m /\
      NoDup (m_points m) /\ length (m_points m) = (na + 2)%nat /\
      (forall x : vec (binary_float p e) 3, In x (m_points m) -> exists q, vertex q /\ close_to c x q) /\
      (forall q, vertex q -> exists! x : vec (binary_float p e) 3, In x (m_points m) /\ close_to c x q).
Proof.
  intros p e Hp He H2 f g h pi S L W meq dbg self SZ rot_align k na co A d t M Hna HW Ht HL Hm Hk seg src tgt r l HR HsM HM Fr Hr Hre HA HX Hdbg c Hs1 Hs2 vertex.
  destruct (cone_setup p e Hp He H2 f g h pi L W meq rot_align k na co A d t M Hna HW Ht HL Hm Hk HR HsM HM Fr Hr Hre HA HX Hs1 Hs2) as (fp & Ep & Hn & Hs & Hv & Hc & Ha & Hl).
  set (rp := fun v => affine A (vreal src) (kpos na r l v)).
  destruct (C61_cone_partial p e Hp He H2 f g h pi L W meq dbg self SZ rot_align k na co Hna HW Hdbg Hn Hs Hv) as (m & Em & V1 & V2 & V3 & V4 & V5 & V6).
  assert (Hin : forall x, In x (m_points m) <-> In x (map fp (kvs na))).
  { intros x. rewrite <- Ep. split; apply Permutation_in; [exact V3|symmetry; exact V3]. }
  exists m. split; [exact Em|]. split.
  { split; [exact V1|]. split; [exact V2|]. split; [reflexivity|]. split; [exact (eq_trans V4 (eq_sym (Permutation_length V3)))|]. split; [exact V5|exact V6]. }
  split; [apply (Permutation_NoDup (l := cone_vertices meq rot_align na co)); [symmetry; exact V3|exact Hn]|].
  split.
  { refine (eq_trans (Permutation_length V3) _). rewrite Ep, map_length, <- (map_length (kenc na)), kvs_enum, seq_length. reflexivity. }
  pose proof (kgrid na A (vreal src) (vreal tgt) r Hl HA) as Hg. change (rdist (vreal tgt) (vreal src)) with l in Hg. split.
  - intros x Hx. apply Hin in Hx. apply in_map_iff in Hx as (v & <- & Hv'). exists (rp v).
    split; [|exact (Hc v Hv')]. apply Hg. exists v. split; [exact (kvs_ok na v Hv')|reflexivity].
  - intros q Hq. apply Hg in Hq as (v & Hv' & ->). change (affine A (vreal src) (kpos na r l v)) with (rp v).
    assert (Iv : In v (kvs na)) by exact (kvs_all na v Hv').
    exists (fp v). split.
    + split; [apply Hin; apply in_map; exact Iv|exact (Hc v Iv)].
    + intros x (Hx & Hcl). symmetry. apply (fp_unique f g h pi L t HL k kvert_dec (kvs na) fp _ c Hc Ha v x Iv); [apply Hin; exact Hx|exact Hcl].
Qed.
Print Assumptions C70_cone.

(** the points computed for the vertices *)
Lemma cylinder_setup :
  forall p e Hp He, (2 < p)%Z -> forall f g h pi,
  let S := IEEE p e Hp He f g h pi in
  forall (L : Linal S) W (meq : hmat S -> hmat S -> bool) (rot_align : hvec S -> hvec S -> hmat S) (k : Z) (na : nat) (cy : cylinder S) (A : vec (vec R 3) 3) (d t M : R),
    (3 <= na)%nat -> (12 * na < W)%nat ->
    trig_accurate d f g pi -> equal_within L t -> identity_within meq t -> (3 - e - p <= 2 * k)%Z ->
    let seg := cy_segment cy in
    let src := g_source seg : vec (binary_float p e) 3 in let tgt := g_target seg : vec (binary_float p e) 3 in
    let r := B2R (cy_radius cy : binary_float p e) in let l := rdist (vreal tgt) (vreal src) in
    in_reach tgt src -> (forall i, (i < 3)%nat -> Rabs (fval i src) <= M) -> M <= bpow radix2 (e - 4) ->
    is_finite (cy_radius cy : binary_float p e) = true -> 0 < r -> r + l <= bpow radix2 (e - 4) ->
    rotation_onto A (rdirection (rsub (vreal tgt) (vreal src))) ->
    rotation_within d A (rot_align (mk4 s0 s0 s1 s1) (to_hvec (segment_direction seg))) ->
    let c := 150 * (d * (r + l)) + 10 * bpow radix2 k + 4 * (uround p * M) + t * (1 + 3 * (r + l)) in
    INR na * (2 * c + t + bpow radix2 k) <= r -> 2 * (2 * c + t + bpow radix2 k) <= l ->
    let rp v := affine A (vreal src) (ypos na r l v) in let pts := cylinder_vertices meq rot_align na cy in
    exists fp, pts = map fp (yvs na) /\ NoDup pts /\ well_separated k (fun x => In x pts) /\ veq_on L (fun x => In x pts) /\
    (forall v, In v (yvs na) -> close_to c (fp v : vec (binary_float p e) 3) (rp v)) /\
    (forall v w, In v (yvs na) -> In w (yvs na) -> v <> w -> exists i, (i < 3)%nat /\ 2 * c + t + bpow radix2 k <= Rabs (vnth 0 i (rp v) - vnth 0 i (rp w))) /\ 0 < l.
Proof.
  intros p e Hp He H2 f g h pi S L W meq rot_align k na cy A d t M Hna HW Ht HL Hm Hk seg src tgt r l HR HsM HM Fr Hr Hre HA HX c Hs1 Hs2 rp pts.
  pose proof (ew_slack _ _ HL) as t0.
  assert (M0 : 0 <= M) by (eapply Rle_trans; [apply Rabs_pos|apply (HsM 0%nat); lia]).
  assert (l0 : 0 <= l) by apply rnorm_nonneg.
  assert (g0 : 0 < 2 * c + t + bpow radix2 k).
  { pose proof (bpow_gt_0 radix2 k). pose proof (@u_pos p). pose proof (ta_round _ _ _ _ Ht). assert (0 <= uround p * M) by (apply Rmult_le_pos; lra).
    assert (0 <= t * (1 + 3 * (r + l))) by (apply Rmult_le_pos; lra). assert (0 <= d * (r + l)) by (apply Rmult_le_pos; lra). unfold c. lra. }
  assert (Hl : 0 < l) by lra.
  destruct (round_setup p e Hp He f g pi k na d t M r l H2 Ht Hna t0 M0 Hr Hl Hk Hs1) as (Hd & Hkr & Hnd & Heta & _ & Hsq).
  set (rho := r + l) in *. set (kap := bpow radix2 k) in *. assert (Hk0 : 0 <= kap) by apply bpow_ge_0. assert (rho0 : 0 < rho) by (unfold rho; lra).
  pose proof (ta_round _ _ _ _ Ht) as Hud. pose proof (@u_pos p) as Hu.
  set (len := segment_length seg : binary_float p e).
  destruct (distance_err f g h pi 3 tgt src) as (Fl & _ & El); [cbn [INR]; lra|exact HR|].
  change (fin len) in Fl. change (@vlength S 3 (@vsub S 3 tgt src)) with len in El. fold l in El.
  assert (Hlen : Rabs (B2R len - l) <= 6 * (d * rho) + 3 * kap).
  { eapply Rle_trans; [exact El|]. assert (E3 : INR 3 = 3) by (cbn; ring). rewrite E3.
    assert (uround p * l <= d * rho) by (apply Rmult_le_compat; unfold rho; lra). lra. }
  destruct HR as (Ft & Fs & _).
  assert (Hlr : l <= rho) by (unfold rho; lra). assert (Hrr : r <= rho) by (unfold rho; lra).
  set (X := rot_align (mk4 s0 s0 s1 s1) (to_hvec (segment_direction seg))) in *.
  set (fp := fun v => place meq (@set_translation S X src) (ybase f g h pi na (cy_radius cy) len v)).
  assert (Hc : forall v, In v (yvs na) -> close_to c (fp v : vec (binary_float p e) 3) (rp v)).
  { intros v Hv. destruct (ybase_close H2 f g h pi d Ht Hd rho kap M rho0 Hre Heta Hk0 Hkr M0 na Hna Hnd (cy_radius cy) Fr Hr Hrr len l Fl l0 Hlr Hlen v (yvs_ok na v Hv)) as (B1 & B2).
    apply (place_close f g h pi d Ht Hd rho kap M rho0 Hre Heta Hk0 Hkr M0 HM meq X A src t); try assumption. apply HA. }
  assert (Ha : forall v w, In v (yvs na) -> In w (yvs na) -> v <> w ->
    exists i, (i < 3)%nat /\ 2 * c + t + bpow radix2 k <= Rabs (vnth 0 i (rp v) - vnth 0 i (rp w))).
  { intros v w Hv Hw Hne. apply (ypos_apart na Hna A (vreal src) (proj1 HA) r l _ g0 Hs1 Hs2 v w (yvs_ok na v Hv) (yvs_ok na w Hw) Hne). }
  assert (Ep : cylinder_vertices meq rot_align na cy = map fp (yvs na)).
  { unfold cylinder_vertices, axis_placement. fold seg. fold X. exact (eq_trans (f_equal (map (place meq (@set_translation S X src))) (cylinder_base_map f g h pi na Hna (cy_radius cy) len)) (map_map _ _ _)). }
  pose proof (fp_nodup f g h pi L t HL k yvert_dec (yvs na) fp _ c Hc Ha (yvs_nodup na)) as Hn.
  pose proof (fp_separated f g h pi L t HL k Hk yvert_dec (yvs na) fp _ c Hc Ha) as Hs.
  pose proof (fp_veq f g h pi L t HL k yvert_dec (yvs na) fp _ c Hc Ha) as Hv.
  exists fp. split; [exact Ep|]. split; [unfold pts; rewrite Ep; exact Hn|]. split; [unfold pts; rewrite Ep; exact Hs|]. split; [unfold pts; rewrite Ep; exact Hv|].
  split; [exact Hc|]. split; [exact Ha|exact Hl].
Qed.

(** The cylinder: two rims. *)
Theorem C70_cylinder :
  forall p e Hp He, (2 < p)%Z -> forall f g h pi,
  let S := IEEE p e Hp He f g h pi in
  forall (L : Linal S) W meq dbg self SZ (rot_align : hvec S -> hvec S -> hmat S) (k : Z) (na : nat) (cy : cylinder S) (A : vec (vec R 3) 3) (d t M : R),
    (3 <= na)%nat -> (12 * na < W)%nat ->
    trig_accurate d f g pi -> equal_within L t -> identity_within meq t -> (3 - e - p <= 2 * k)%Z ->
    let seg := cy_segment cy in
    let src := g_source seg : vec (binary_float p e) 3 in let tgt := g_target seg : vec (binary_float p e) 3 in
    let r := B2R (cy_radius cy : binary_float p e) in let l := rdist (vreal tgt) (vreal src) in
    in_reach tgt src -> (forall i, (i < 3)%nat -> Rabs (fval i src) <= M) -> M <= bpow radix2 (e - 4) ->
    is_finite (cy_radius cy : binary_float p e) = true -> 0 < r -> r + l <= bpow radix2 (e - 4) ->
    rotation_onto A (rdirection (rsub (vreal tgt) (vreal src))) ->
    rotation_within d A (rot_align (mk4 s0 s0 s1 s1) (to_hvec (segment_direction seg))) ->
    let c := 150 * (d * (r + l)) + 10 * bpow radix2 k + 4 * (uround p * M) + t * (1 + 3 * (r + l)) in
    INR na * (2 * c + t + bpow radix2 k) <= r -> 2 * (2 * c + t + bpow radix2 k) <= l ->
    let vertex q := q = vreal src \/ q = vreal tgt \/ rim na A (vreal src) r q \/ rim na A (vreal tgt) r q in
    exists m, mb_cylinder L W meq dbg self SZ rot_align na cy = Ok (Some m) /\
      closed_on W dbg self (m_points m) (4 * na) m /\
      NoDup (m_points m) /\ length (m_points m) = (2 * na + 2)%nat /\
      (forall x : vec (binary_float p e) 3, In x (m_points m) -> exists q, vertex q /\ close_to c x q) /\
      (forall q, vertex q -> exists! x : vec (binary_float p e) 3, In x (m_points m) /\ close_to c x q).
Proof.
  intros p e Hp He H2 f g h pi S L W meq dbg self SZ rot_align k na cy A d t M Hna HW Ht HL Hm Hk seg src tgt r l HR HsM HM Fr Hr Hre HA HX c Hs1 Hs2 vertex.
  destruct (cylinder_setup p e Hp He H2 f g h pi L W meq rot_align k na cy A d t M Hna HW Ht HL Hm Hk HR HsM HM Fr Hr Hre HA HX Hs1 Hs2) as (fp & Ep & Hn & Hs & Hv & Hc & Ha & Hl).
  set (rp := fun v => affine A (vreal src) (ypos na r l v)).
  destruct (C61_cylinder_partial p e Hp He H2 f g h pi L W meq dbg self SZ rot_align k na cy Hna HW Hn Hs Hv) as (m & Em & V1 & V2 & V3 & V4 & V5 & V6).
  assert (Hin : forall x, In x (m_points m) <-> In x (map fp (yvs na))).
  { intros x. rewrite <- Ep. split; apply Permutation_in; [exact V3|symmetry; exact V3]. }
  exists m. split; [exact Em|]. split.
  { split; [exact V1|]. split; [exact V2|]. split; [reflexivity|]. split; [exact (eq_trans V4 (eq_sym (Permutation_length V3)))|]. split; [exact V5|exact V6]. }
  split; [apply (Permutation_NoDup (l := cylinder_vertices meq rot_align na cy)); [symmetry; exact V3|exact Hn]|].
  split.
  { refine (eq_trans (Permutation_length V3) _). rewrite Ep, map_length, <- (map_length (yenc na)), yvs_enum, seq_length. reflexivity. }
  pose proof (ygrid na A (vreal src) (vreal tgt) r Hl HA) as Hg. change (rdist (vreal tgt) (vreal src)) with l in Hg. split.
  - intros x Hx. apply Hin in Hx. apply in_map_iff in Hx as (v & <- & Hv'). exists (rp v).
    split; [|exact (Hc v Hv')]. apply Hg. exists v. split; [exact (yvs_ok na v Hv')|reflexivity].
  - intros q Hq. apply Hg in Hq as (v & Hv' & ->). change (affine A (vreal src) (ypos na r l v)) with (rp v).
    assert (Iv : In v (yvs na)) by exact (yvs_all na v Hv').
    exists (fp v). split.
    + split; [apply Hin; apply in_map; exact Iv|exact (Hc v Iv)].
    + intros x (Hx & Hcl). symmetry. apply (fp_unique f g h pi L t HL k yvert_dec (yvs na) fp _ c Hc Ha v x Iv); [apply Hin; exact Hx|exact Hcl].
Qed.
Print Assumptions C70_cylinder.

(** The hypotheses: the cylinder (and cone) with radius 2 and the axis from (1, 2, 3) to
    (1, 2, 7), 32 steps, in double precision with correctly rounded functions and
    exact comparisons. *)
Definition exact_meq {p e} (X Y : hmat (binary_float p e)) : bool :=
  forallb (fun i => forallb (fun j => Beqb (entry i j X) (entry i j Y)) (seq 0 4)) (seq 0 4).
Lemma exact_identity p e Hp He f g h pi : identity_within (Hp := Hp) (He := He) (f := f) (g := g) (h := h) (pi := pi) (@exact_meq p e) 0.
Proof.
  intros X E i j Hi Hj. unfold exact_meq in E. rewrite forallb_forall in E. specialize (E i ltac:(apply in_seq; lia)).
  rewrite forallb_forall in E. specialize (E j ltac:(apply in_seq; lia)).
  destruct (@one_spec p e Hp He) as (F1 & E1).
  assert (K : is_finite (entry i j (@hidentity (IEEE p e Hp He f g h pi) : hmat (binary_float p e))) = true /\
    B2R (entry i j (@hidentity (IEEE p e Hp He f g h pi) : hmat (binary_float p e))) = if Nat.eqb i j then 1 else 0).
  { destruct i as [|[|[|[|i]]]], j as [|[|[|[|j]]]]; try lia; split; try reflexivity; try exact F1; exact E1. }
  destruct K as (K1 & K2). apply eqb_B2R in E as (_ & E); [|exact K1]. rewrite E, K2. unfold Rminus. rewrite Rplus_opp_r, Rabs_R0. lra.
Qed.
Definition caxis : segment CS 3 := @mkSegment CS 3 (mk3 (b64_ofZ 1) (b64_ofZ 2) (b64_ofZ 3)) (mk3 (b64_ofZ 1) (b64_ofZ 2) (b64_ofZ 7)).
Definition ident3 : vec (vec R 3) 3 := ((1, (0, (0, tt))), ((0, (1, (0, tt))), ((0, (0, (1, tt))), tt))).
Example C70_example :
  let cy : cylinder CS := @mkCylinder CS caxis (b64_ofZ 2) in
  let rot_align : hvec CS -> hvec CS -> hmat CS := fun _ _ => @hidentity CS in
  let d := bpow radix2 (-52) in
  (3 <= 32)%nat /\ (12 * 32 < 500)%nat /\ trig_accurate d ccos csin cpi /\ equal_within (raw_linal CS s0) 0 /\
  identity_within (Hp := prec53) (He := prec_emax64) (f := ccos) (g := csin) (h := fun x => x) (pi := cpi) (@exact_meq 53 1024) 0 /\
  let src := g_source caxis : vec b64 3 in let tgt := g_target caxis : vec b64 3 in
  let r := B2R (cy_radius cy : b64) in let l := rdist (vreal tgt) (vreal src) in
  in_reach tgt src /\ (forall i, (i < 3)%nat -> Rabs (fval i src) <= 4) /\ 4 <= bpow radix2 (1024 - 4) /\
  is_finite (cy_radius cy : b64) = true /\ 0 < r /\ r + l <= bpow radix2 (1024 - 4) /\
  rotation_onto ident3 (rdirection (rsub (vreal tgt) (vreal src))) /\
  rotation_within d ident3 (rot_align (mk4 s0 s0 s1 s1) (to_hvec (segment_direction caxis)) : hmat b64) /\
  let c := 150 * (d * (r + l)) + 10 * bpow radix2 (-340) + 4 * (uround 53 * 4) + 0 * (1 + 3 * (r + l)) in
  INR 32 * (2 * c + 0 + bpow radix2 (-340)) <= r /\ 2 * (2 * c + 0 + bpow radix2 (-340)) <= l.
Proof.
  intros cy rot_align d.
  destruct (b64_small 1 ltac:(lia)) as (F1 & E1). destruct (b64_small 2 ltac:(lia)) as (F2 & E2).
  destruct (b64_small 3 ltac:(lia)) as (F3 & E3). destruct (b64_small 7 ltac:(lia)) as (F7 & E7).
  split; [lia|]. split; [lia|]. split.
  { unfold d. replace (bpow radix2 (-52)) with (2 * uround 53) by (unfold uround; change 2 with (bpow radix2 1); rewrite <- bpow_plus; reflexivity).
    apply (rounded_trig 53 1024 prec53 prec_emax64). lia. }
  split; [apply raw_within|]. split; [apply exact_identity|]. intros src tgt r l.
  assert (Er : r = 2) by exact E2.
  assert (Vs : vreal src = (1, (2, (3, tt)))).
  { transitivity (B2R (b64_ofZ 1), (B2R (b64_ofZ 2), (B2R (b64_ofZ 3), tt))); [reflexivity|]. rewrite E1, E2, E3. reflexivity. }
  assert (Vt : vreal tgt = (1, (2, (7, tt)))).
  { transitivity (B2R (b64_ofZ 1), (B2R (b64_ofZ 2), (B2R (b64_ofZ 7), tt))); [reflexivity|]. rewrite E1, E2, E7. reflexivity. }
  assert (El : l = 4).
  { unfold l, rdist, rnorm. rewrite Vs, Vt. cbn. replace ((1 - 1) * (1 - 1) + ((2 - 2) * (2 - 2) + ((7 - 3) * (7 - 3) + 0))) with (4 * 4) by ring.
    apply sqrt_square. lra. }
  assert (B : 16 <= bpow radix2 (1024 - 4)) by (change 16 with (bpow radix2 4); apply bpow_le; lia).
  assert (d9 : d <= bpow radix2 (-20)) by (apply bpow_le; lia). assert (d20 : 1000000 * bpow radix2 (-20) <= 1) by (cbn; lra).
  assert (d0 : 0 < d) by apply bpow_gt_0.
  split.
  { split; [intros [|[|[|i]]] Hi; [exact F1|exact F2|exact F7|lia]|]. split; [intros [|[|[|i]]] Hi; [exact F1|exact F2|exact F3|lia]|].
    fold l. rewrite El. lra. }
  split.
  { intros [|[|[|i]]] Hi; [| | |lia].
    - change (Rabs (B2R (b64_ofZ 1)) <= 4). rewrite E1, Rabs_pos_eq; lra.
    - change (Rabs (B2R (b64_ofZ 2)) <= 4). rewrite E2, Rabs_pos_eq; lra.
    - change (Rabs (B2R (b64_ofZ 3)) <= 4). rewrite E3, Rabs_pos_eq; lra. }
  split; [lra|]. split; [exact F2|]. rewrite Er, El. split; [lra|]. split; [lra|]. split.
  { assert (I3 : forall x, affine ident3 rzero x = x).
    { intros (x & y & z & []). cbn. repeat (apply f_equal2; [ring|]). reflexivity. }
    split; [|split].
    - intros x y. rewrite !I3. reflexivity.
    - cbn. lra.
    - unfold rdirection. fold (rdist (vreal tgt) (vreal src)). fold l. rewrite El, Vs, Vt. cbn. repeat (apply f_equal2; [field|]). reflexivity. }
  split.
  { destruct (@one_spec 53 1024 prec53 prec_emax64) as (G1 & G2).
    assert (K0 : Rabs (0 - 0) <= d) by (rewrite Rminus_0_r, Rabs_R0; lra).
    assert (K1 : Rabs (B2R (ieee_pow 53 1024 prec53 prec_emax64 1 0) - 1) <= d) by (rewrite G2; unfold Rminus; rewrite Rplus_opp_r, Rabs_R0; lra).
    intros [|[|[|i]]] [|[|[|j]]] Hi Hj; try lia; split; try reflexivity; first [exact G1|exact K1|exact K0]. }
  assert (u9 : uround 53 <= bpow radix2 (-20)) by (apply bpow_le; lia).
  assert (k9 : bpow radix2 (-340) <= bpow radix2 (-20)) by (apply bpow_le; lia).
  intros c. assert (E32 : INR 32 = 32) by (cbn; ring). rewrite E32. unfold c. split; lra.
Qed.
