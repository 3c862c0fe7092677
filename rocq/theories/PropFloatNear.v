(** * Property theorems: how near the normals of a tessellated sphere are, in floating point (C93) *)

From Coq Require Import List Arith Bool Lia Permutation ZArith Reals Lra.
From Flocq Require Import Core BinarySingleNaN.
From Verif Require Import Scalar Linal Result SpecReal VecR VecLemmas ModelKdTree SpecKdTree SpecTransform SpecIEEE SpecFloatErr SpecFloatTess SpecFloatOut SpecConvex SpecFloatConvex SpecVertexOut SpecFloatNear
  ModelShapes ModelTransform ModelMesh SpecMesh ModelTess SpecTess ProofTransform ProofTessComb ProofTessMesh ProofTessSphere ProofTess ProofVolume ProofConvex
  ProofRound ProofIEEE ProofFloatErr ProofFloatDist ProofFloatTrig ProofFloatTess ProofFloatOut ProofVertexOut ProofFloatNear PropMeshIEEE PropFloatTess PropFloatOut PropFloatConvex.
Import ListNotations.
Local Open Scope R_scope.

Lemma sphere_near {p e : Z} {Hp : Prec_gt_0 p} {He : Prec_lt_emax p e} fc fs fa fpi (L : Linal (IEEE p e Hp He fc fs fa fpi)) self m o r c K (np na : nat) w :
  (2 <= np)%nat -> (3 <= na)%nat -> 0 < r -> 0 <= c -> let N := INR np * INR np * INR na in
  ready L self m o r c (8 * (r * r * r) / N) K (2 * na * (np - 1)) ->
  let k := cos (PI / INR np / 2) * cos (PI / INR na) in
  w <= 1 / 2 -> 144 * c <= w * r -> 768 * (N * uround p) <= w ->
  (forall q, rdist q o <= (1 - w) * (r * k) -> float_enclosed m q) ->
  let near q n := k - 2 * w <= rdot n (rdirection (rsub q o)) /\ rdist n (rdirection (rsub q o)) <= PI / (2 * INR np) + PI / INR na + 2 * INR np * w in
  float_vertex_normals L self m near /\ float_facet_normals self m near.
Proof.
  intros Hnp Hna Hr c0 N Hrd k w1 Hcw HNw Henc near. pose proof (@u_pos p) as U.
  assert (P : 2 <= INR np) by exact (INR_p np Hnp). assert (A : 3 <= INR na) by exact (INR_a na Hna).
  assert (PA : 2 * 3 <= INR np * INR na) by (apply Rmult_le_compat; lra).
  assert (N2 : 2 * (INR np * INR na) <= N) by (unfold N; rewrite Rmult_assoc; apply Rmult_le_compat_r; lra). assert (N12 : 12 <= N) by lra.
  destruct (half_cos np na Hnp Hna) as ((k1 & k2) & Hk). fold k in k1, k2, Hk.
  assert (Nu : 12 * uround p <= N * uround p) by (apply Rmult_le_compat_r; lra). assert (w0 : 0 < w) by lra.
  set (cnt := INR (3 * (2 * na * (np - 1)))).
  assert (Hc : cnt <= 3 * N).
  { apply Rle_trans with (INR (6 * (np * na))); [unfold cnt; apply le_INR; nia|]. rewrite !mult_INR. replace (INR 6) with 6 by (cbn; ring). lra. }
  assert (cu : cnt * uround p <= 3 * N * uround p) by (apply Rmult_le_compat_r; lra).
  set (rho := (1 - w) * (r * k)) in *.
  assert (rk : 0 < r * k) by (apply Rmult_lt_0_compat; lra).
  assert (rho0 : 0 < rho) by (apply Rmult_lt_0_compat; lra).
  set (nu := rho / (r + 2 * c)).
  assert (Hnu : (1 - w) * k * (1 - w / 72) <= nu).
  { unfold nu. apply Rmult_le_reg_r with (r + 2 * c); [lra|]. replace (rho / (r + 2 * c) * (r + 2 * c)) with rho by (field; lra).
    unfold rho. replace ((1 - w) * k * (1 - w / 72) * (r + 2 * c)) with ((1 - w) * k * ((1 - w / 72) * (r + 2 * c))) by ring. replace ((1 - w) * (r * k)) with ((1 - w) * k * r) by ring.
    apply Rmult_le_compat_l; [apply Rmult_le_pos; lra|]. assert (0 <= w * c) by (apply Rmult_le_pos; lra). lra. }
  assert (nu1 : 1 / 10 <= nu).
  { eapply Rle_trans; [|exact Hnu]. assert (1 / 2 * (1 / 4) <= (1 - w) * k) by (apply Rmult_le_compat; lra). assert (1 / 2 * (1 / 4) * (143 / 144) <= (1 - w) * k * (1 - w / 72)) by (apply Rmult_le_compat; lra). lra. }
  assert (nu2 : k - 73 / 72 * w <= nu).
  { eapply Rle_trans; [|exact Hnu]. replace ((1 - w) * k * (1 - w / 72)) with (k - 73 / 72 * (w * k) + / 72 * (w * w * k)) by field.
    assert (w * k <= w * 1) by (apply Rmult_le_compat_l; lra). assert (0 <= w * w * k) by (apply Rmult_le_pos; [apply Rmult_le_pos; lra|lra]). lra. }
  set (sg := 2 / (3 * N)). assert (sg0 : 0 < sg) by (apply Rdiv_lt_0_compat; lra).
  assert (E36 : 36 * uround p / sg = 54 * (N * uround p)) by (unfold sg; field; lra).
  assert (E24 : 24 * uround p / sg = 36 * (N * uround p)) by (unfold sg; field; lra).
  assert (Hud : 1024 * uround p <= 1) by lra.
  assert (Steps : forall (q n : vec R 3), 0 < rdot n (rdirection (rsub q o)) -> Rabs (rnorm n - 1) <= 6 * uround p -> k - 9 / 8 * w <= rdot n (rdirection (rsub q o)) ->
    rdist n (rdirection (rsub q o)) <= PI / (2 * INR np) + PI / INR na + 2 * INR np * w).
  { intros q n Hq0 Hn Hd. assert (Hq : 0 < rnorm (rsub q o)).
    { destruct (Req_dec (rnorm (rsub q o)) 0) as [X|X]; [|pose proof (rnorm_nonneg (rsub q o)); lra]. apply rnorm_zero in X. rewrite X in Hq0. unfold rdirection in Hq0. rewrite rdot_scale_r, (rdot_comm n), rdot_zero_l in Hq0. lra. }
    pose proof PI_RGT_0 as pi0. pose proof PI2_3_2 as pi3.
    assert (W1 : rnorm (rdirection (rsub q o)) = 1) by (apply rnorm_normalize; intros X; rewrite X, rnorm_rzero in Hq; lra).
    eapply Rle_trans; [apply (almost_near n _ (PI / (2 * INR np)) (PI / INR na) (INR np) k (9 / 8 * w) (uround p) W1 Hn)|].
    - lra.
    - apply Rdiv_lt_0_compat; lra.
    - apply Rdiv_lt_0_compat; lra.
    - lra.
    - lra.
    - replace (PI / (2 * INR np) * INR np) with (PI / 2) by (field; lra). lra.
    - exact Hk.
    - exact Hd.
    - apply Rplus_le_compat_l. rewrite (Rmult_comm 2 (INR np)), Rmult_assoc. apply Rmult_le_compat_l; lra. }
  destruct (ready_near fc fs fa fpi L self m o r c _ K _ sg rho Hrd sg0) as ((ns & En & Ln & Hn) & Hf).
  - apply Req_le. unfold sg. field. lra.
  - exact rho0.
  - exact Henc.
  - fold cnt. lra.
  - fold cnt nu. rewrite E36. lra.
  - fold cnt nu in Hn, Hf. rewrite E36 in Hn. rewrite E24 in Hf. split.
    + exists ns. split; [exact En|]. split; [exact Ln|]. intros v n q Hv Hq. destruct (Hn v n q Hv Hq) as (B1 & B2 & B3). split; [exact B1|]. split; [exact B2|].
      assert (B4 : k - 9 / 8 * w <= rdot (vreal n) (rdirection (rsub (vreal q) o))) by lra. split; [lra|]. apply Steps; [lra|assumption|assumption].
    + intros kk f Hff. destruct (Hf kk f Hff) as (n & En' & B1 & B2 & B3). exists n. split; [exact En'|]. split; [exact B1|]. split; [exact B2|].
      intros i he q Hh Hkk Hq. specialize (B3 i he q Hh Hkk Hq). assert (B4 : k - 9 / 8 * w <= rdot (vreal n) (rdirection (rsub (vreal q) o))) by lra. split; [lra|]. apply Steps; [lra|assumption|assumption].
Qed.

(** ** C93: the sphere.  Every normal that is computed, for a facet or a vertex, points
    at a corner along the normal of the sphere there up to half a polar step, half an
    azimuthal step and a multiple of the rounding error [w] of C89.  Nothing is asked of
    the comparison beyond what the construction of the mesh needs. *)
Theorem C93_sphere :
  forall p e Hp He, (2 < p)%Z -> forall f g h pi,
  let S := IEEE p e Hp He f g h pi in
  forall (L : Linal S) W meq dbg self SZ (k K : Z) (np na : nat) (o0 : point S) (s : sphere S) (d t M : R),
    (2 <= np)%nat -> (3 <= na)%nat -> (6 * na * (np - 1) < W)%nat -> meq hidentity hidentity = true ->
    trig_accurate d f g pi -> equal_within L t -> (3 - e - p <= 2 * k)%Z ->
    let o := s_origin s : vec (binary_float p e) 3 in let r := B2R (s_radius s : binary_float p e) in
    finite_pt o -> (forall i, (i < 3)%nat -> Rabs (fval i o) <= M) -> M <= bpow radix2 (e - 2) ->
    is_finite (s_radius s : binary_float p e) = true -> 0 < r <= bpow radix2 (e - 2) ->
    let c := 64 * (d * r) + uround p * M + t in
    INR np * INR na * (c + bpow radix2 k) <= r ->
    scale_frame p e K r (8 * (r * r * r) / (INR np * INR np * INR na)) ->
    let w := 12 * (INR np * INR np * INR na) * c / r in w <= 1 / 2 ->
    let near q n := cos (PI / INR np / 2) * cos (PI / INR na) - 2 * w <= rdot n (rdirection (rsub q (vreal o))) /\
      rdist n (rdirection (rsub q (vreal o))) <= PI / (2 * INR np) + PI / INR na + 2 * INR np * w in
    exists m, mb_sphere L W meq dbg self SZ np na o0 s = Ok m /\ length (m_facets m) = (2 * na * (np - 1))%nat /\
      float_vertex_normals L self m near /\ float_facet_normals self m near.
Proof.
  intros p e Hp He H2 f g h pi S L W meq dbg self SZ k K np na o0 s d t M Hnp Hna HW Hid Ht HL Hk o r Fo HoM HM Fr (Hr & Hre) c Hsep Hfr w w1 near.
  pose proof (@u_pos p) as Hu. pose proof (ta_round _ _ _ _ Ht) as Hud. pose proof (ew_slack _ _ HL) as t0.
  assert (M0 : 0 <= M) by (eapply Rle_trans; [apply Rabs_pos|apply (HoM 0%nat); lia]).
  assert (uM : 0 <= uround p * M) by (apply Rmult_le_pos; lra). assert (dr : uround p * r <= d * r) by (apply Rmult_le_compat_r; lra).
  assert (ur : 0 < uround p * r) by (apply Rmult_lt_0_compat; assumption).
  assert (P : 2 <= INR np) by exact (INR_p np Hnp). assert (A : 3 <= INR na) by exact (INR_a na Hna).
  assert (PA : 2 * 3 <= INR np * INR na) by (apply Rmult_le_compat; lra).
  set (N := INR np * INR np * INR na) in *.
  assert (N12 : 12 <= N) by (unfold N; assert (2 * (2 * 3) <= INR np * (INR np * INR na)) by (apply Rmult_le_compat; lra); lra).
  assert (c0 : 64 * (uround p * r) <= c) by (unfold c; lra).
  assert (Ew : w * r = 12 * (N * c)) by (unfold w; field; lra).
  assert (Nc : 0 <= N * c) by (apply Rmult_le_pos; lra).
  assert (Hout : N * (2 * c) <= r). { assert (w * r <= 1 / 2 * r) by (apply Rmult_le_compat_r; lra). lra. }
  destruct (sphere_ready p e Hp He H2 f g h pi L W meq dbg self SZ k K np na o0 s d t M Hnp Hna HW Hid Ht HL Hk Fo HoM HM Fr (conj Hr Hre) Hsep Hout Hfr) as (m & Em & Hl & Hrd).
  destruct (C89_sphere p e Hp He H2 f g h pi L W meq dbg self SZ k np na o0 s d t M Hnp Hna HW Hid Ht HL Hk Fo HoM HM Fr (conj Hr Hre) Hsep w1) as (m' & Em' & Hin & _).
  rewrite Em in Em'. apply Ok_inj in Em'. subst m'.
  exists m. split; [exact Em|]. split; [exact Hl|].
  apply (sphere_near f g h pi L self m (vreal o) r c K np na w Hnp Hna Hr); [lra|exact Hrd|exact w1| | |].
  - rewrite Ew. assert (12 * c <= N * c) by (apply Rmult_le_compat_r; lra). lra.
  - fold N. apply Rmult_le_reg_r with r; [exact Hr|]. rewrite Ew. assert (N * (64 * (uround p * r)) <= N * c) by (apply Rmult_le_compat_l; lra). lra.
  - intros q Hq. apply Hin. change (rdist q (vreal o) <= (1 - w) * (r * cos (PI / INR np / 2) * cos (PI / INR na))). rewrite (Rmult_assoc r). exact Hq.
Qed.
Print Assumptions C93_sphere.

(** In double precision, for a centre at most 2^20 radii away from the origin; the
    number of steps may be larger than in C80. *)
Corollary C93_sphere_double :
  forall f g h pi, let S := B64 f g h pi in
  forall (L : Linal S) W meq dbg self SZ (np na : nat) (o0 : point S) (s : sphere S),
    (2 <= np)%nat -> (3 <= na)%nat -> INR np * INR np * INR na <= bpow radix2 27 -> (6 * na * (np - 1) < W)%nat -> meq hidentity hidentity = true ->
    trig_accurate (bpow radix2 (-52)) f g pi -> equal_within L 0 ->
    let o := s_origin s : vec b64 3 in let r := B2R (s_radius s : b64) in
    finite_pt o -> is_finite (s_radius s : b64) = true -> bpow radix2 (-180) <= r <= bpow radix2 180 ->
    (forall i, (i < 3)%nat -> Rabs (fval i o) <= bpow radix2 20 * r) ->
    let w := bpow radix2 (-28) * (INR np * INR np * INR na) in
    let near q n := cos (PI / INR np / 2) * cos (PI / INR na) - 2 * w <= rdot n (rdirection (rsub q (vreal o))) /\
      rdist n (rdirection (rsub q (vreal o))) <= PI / (2 * INR np) + PI / INR na + 2 * INR np * w in
    exists m, mb_sphere L W meq dbg self SZ np na o0 s = Ok m /\ length (m_facets m) = (2 * na * (np - 1))%nat /\
      float_vertex_normals L self m near /\ float_facet_normals self m near.
Proof.
  intros f g h pi S L W meq dbg self SZ np na o0 s Hnp Hna HN HW Hid Ht HL o r Fo Fr (Hr1 & Hr2) Ho w near.
  destruct (sphere_double_ready f g h pi L W meq dbg self SZ np na o0 s Hnp Hna (Rle_trans _ _ _ HN (bpow_le radix2 27 30 ltac:(lia))) HW Hid Ht HL Fo Fr (conj Hr1 Hr2) Ho) as (m & Em & Hl & Hrd).
  assert (Hr : bpow radix2 (-300) <= r <= bpow radix2 900).
  { split; [eapply Rle_trans; [|exact Hr1]; apply bpow_le; lia|eapply Rle_trans; [exact Hr2|]; apply bpow_le; lia]. }
  destruct (C89_sphere_double f g h pi L W meq dbg self SZ np na o0 s Hnp Hna HN HW Hid Ht HL Fo Fr Hr Ho) as (m' & Em' & Hin & _).
  rewrite Em in Em'. apply Ok_inj in Em'. subst m'. exists m. split; [exact Em|]. split; [exact Hl|].
  pose proof (bpow_gt_0 radix2 (-180)) as B0. assert (r0 : 0 < r) by lra. pose proof (bpow_gt_0 radix2 (-53)) as B53.
  assert (E1 : bpow radix2 (-52) = bpow radix2 (-53) * 2) by (change 2 with (bpow radix2 1); rewrite <- bpow_plus; reflexivity).
  assert (E2 : bpow radix2 20 = 1048576) by (cbn; lra). assert (E3 : bpow radix2 (-28) = bpow radix2 (-53) * 33554432).
  { replace 33554432 with (bpow radix2 25) by (cbn; lra). rewrite <- bpow_plus. reflexivity. }
  assert (P : 2 <= INR np) by exact (INR_p np Hnp). assert (A : 3 <= INR na) by exact (INR_a na Hna).
  assert (PA : 2 * 3 <= INR np * INR na) by (apply Rmult_le_compat; lra).
  assert (N12 : 12 <= INR np * INR np * INR na) by (assert (2 * (2 * 3) <= INR np * (INR np * INR na)) by (apply Rmult_le_compat; lra); lra).
  set (x := bpow radix2 (-53)) in *. assert (xr : 0 < x * r) by (apply Rmult_lt_0_compat; assumption).
  set (c := 64 * (bpow radix2 (-52) * r) + uround 53 * (bpow radix2 20 * r) + 0).
  assert (Ec : c = 1048704 * (x * r)) by (unfold c, uround; change (bpow radix2 (- (53))) with x; rewrite E1, E2; ring).
  apply (sphere_near f g h pi L self m (vreal o) r c 212 np na w Hnp Hna r0); [rewrite Ec; lra|exact Hrd| | | |].
  - unfold w. apply Rle_trans with (bpow radix2 (-28) * bpow radix2 27); [apply Rmult_le_compat_l; [apply bpow_ge_0|exact HN]|]. rewrite <- bpow_plus. cbn. lra.
  - rewrite Ec. unfold w. rewrite E3. replace (x * 33554432 * (INR np * INR np * INR na) * r) with (33554432 * (x * r) * (INR np * INR np * INR na)) by ring.
    assert (33554432 * (x * r) * 12 <= 33554432 * (x * r) * (INR np * INR np * INR na)) by (apply Rmult_le_compat_l; lra). lra.
  - unfold w, uround. change (bpow radix2 (- (53))) with x. rewrite E3. assert (0 <= INR np * INR np * INR na * x) by (apply Rmult_le_pos; lra). lra.
  - intros q Hq. apply Hin. change (rdist q (vreal o) <= (1 - w) * (r * cos (PI / INR np / 2) * cos (PI / INR na))). rewrite (Rmult_assoc r). exact Hq.
Qed.
Print Assumptions C93_sphere_double.

(** the sphere of C89's example: 16 polar and 32 azimuthal steps, radius 2; the bound on
    the distance is then below 0.27, and the scalar product above 97/100 *)
Example C93_example :
  INR 16 * INR 16 * INR 32 <= bpow radix2 27 /\
  (let r := B2R (s_radius csphere : b64) in bpow radix2 (-180) <= r <= bpow radix2 180) /\
  let w := bpow radix2 (-28) * (INR 16 * INR 16 * INR 32) in
  97 / 100 <= cos (PI / INR 16 / 2) * cos (PI / INR 32) - 2 * w /\ PI / (2 * INR 16) + PI / INR 32 + 2 * INR 16 * w <= 1 / 4 + 1 / 50.
Proof.
  destruct (b64_small 2 ltac:(lia)) as (F2 & E2).
  split; [cbn; lra|]. split.
  { intros r. assert (Er : r = 2) by exact E2. rewrite Er. split; change 2 with (bpow radix2 1); apply bpow_le; lia. }
  intros w. assert (E16 : INR 16 = 16) by (cbn; ring). assert (E32 : INR 32 = 32) by (cbn; ring). rewrite E16, E32 in *.
  assert (Hw : 0 <= w <= / 32768) by (unfold w; rewrite ?E16, ?E32; cbn; lra).
  pose proof PI_4 as p4. pose proof PI_RGT_0 as p0. set (x := PI / 32). assert (Hx : 0 <= x <= 1 / 8) by (unfold x; lra).
  replace (PI / 16 / 2) with x by (unfold x; field). replace (PI / (2 * 16)) with x by (unfold x; field).
  pose proof (cos_low x ltac:(lra)) as Cx. assert (x * x <= 1 / 8 * (1 / 8)) by (apply Rmult_le_compat; lra).
  assert ((1 - 1 / 128) * (1 - 1 / 128) <= cos x * cos x) by (apply Rmult_le_compat; lra).
  split; [lra|]. change (PI / 32) with x. lra.
Qed.
