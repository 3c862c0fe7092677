(** * Property theorems: tessellations in floating point with accurate
    trigonometric functions (C68) *)

From Coq Require Import List Arith Bool Lia Permutation ZArith Reals Lra.
From Flocq Require Import Core BinarySingleNaN.
From Verif Require Import Scalar Linal Result SpecReal VecR ModelKdTree SpecKdTree SpecIEEE SpecFloatErr SpecFloatTess VecLemmas
  ModelShapes ModelTransform ModelMesh SpecMesh ModelTess SpecTess ProofTessComb ProofTessConn ProofTessMesh ProofTessSphere
  ProofRound ProofIEEE ProofFloatErr ProofFloatTrig ProofTessSafe ProofMeshIEEE ProofFloatTess PropMeshIEEE.
Import ListNotations.
Local Open Scope R_scope.

(** the points computed for the vertices *)
Lemma sphere_setup :
  forall p e Hp He, (2 < p)%Z -> forall f g h pi,
  let S := IEEE p e Hp He f g h pi in
  forall (L : Linal S) W (meq : hmat S -> hmat S -> bool) (k : Z) (np na : nat) (s : sphere S) (d t M : R),
    (2 <= np)%nat -> (3 <= na)%nat -> (6 * na * (np - 1) < W)%nat -> meq hidentity hidentity = true ->
    trig_accurate d f g pi -> equal_within L t -> (3 - e - p <= 2 * k)%Z ->
    let o := s_origin s : vec (binary_float p e) 3 in let r := B2R (s_radius s : binary_float p e) in
    finite_pt o -> (forall i, (i < 3)%nat -> Rabs (fval i o) <= M) -> M <= bpow radix2 (e - 2) ->
    is_finite (s_radius s : binary_float p e) = true -> 0 < r <= bpow radix2 (e - 2) ->
    let c := 64 * (d * r) + uround p * M + t in
    INR np * INR na * (c + bpow radix2 k) <= r ->
    let fp := fpos f g h pi L np na s in let pts := sphere_points L np na s in
    pts = map fp (svs np na) /\ NoDup pts /\ well_separated k (fun x => In x pts) /\ veq_on L (fun x => In x pts) /\
    (forall v, In v (svs np na) -> close_to c (fp v : vec (binary_float p e) 3) (spos np na (vreal o) r v)) /\
    (forall v w, In v (svs np na) -> In w (svs np na) -> v <> w ->
      exists i, (i < 3)%nat /\ 2 * c + t + bpow radix2 k <= Rabs (vnth 0 i (spos np na (vreal o) r v) - vnth 0 i (spos np na (vreal o) r w))).
Proof.
  intros p e Hp He H2 f g h pi S L W meq k np na s d t M Hnp Hna HW Hid Ht HL Hk o r Fo HoM HM Fr (Hr & Hre) c Hsep fp pts.
  pose proof (@u_pos p) as Hu. pose proof (ta_round _ _ _ _ Ht) as Hud. pose proof (ew_slack _ _ HL) as t0. pose proof (bpow_gt_0 radix2 k) as Hb.
  assert (P : 2 <= INR np) by exact (INR_p np Hnp). assert (A : 3 <= INR na) by exact (INR_a na Hna).
  assert (M0 : 0 <= M) by (eapply Rle_trans; [apply Rabs_pos|apply (HoM 0%nat); lia]).
  assert (uM : 0 <= uround p * M) by (apply Rmult_le_pos; lra).
  assert (d0 : 0 < d) by lra. assert (dr : 0 < d * r) by (apply Rmult_lt_0_compat; assumption).
  set (N := INR np * INR na) in *.
  assert (N6 : 2 * 3 <= N) by (apply Rmult_le_compat; lra).
  assert (Nd : N * (64 * (d * r)) <= r).
  { eapply Rle_trans; [|exact Hsep]. apply Rmult_le_compat_l; [lra|]. unfold c. lra. }
  assert (Nd1 : N * d <= 1 / 64).
  { apply Rmult_le_reg_r with (64 * r); [lra|]. lra. }
  assert (Hd : d <= 1 / 384).
  { assert (6 * d <= N * d) by (apply Rmult_le_compat_r; lra). lra. }
  assert (npN : INR np * d <= 1 / 64).
  { eapply Rle_trans; [|exact Nd1]. apply Rmult_le_compat_r; [lra|]. unfold N. rewrite <- (Rmult_1_r (INR np)) at 1. apply Rmult_le_compat_l; lra. }
  assert (naN : INR na * d <= 1 / 64).
  { eapply Rle_trans; [|exact Nd1]. apply Rmult_le_compat_r; [lra|]. unfold N. rewrite <- (Rmult_1_l (INR na)) at 1. apply Rmult_le_compat_r; lra. }
  assert (kr : bpow radix2 k <= r).
  { eapply Rle_trans; [|exact Hsep]. apply Rle_trans with (1 * (c + bpow radix2 k)); [unfold c; lra|]. apply Rmult_le_compat_r; [unfold c; lra|lra]. }
  assert (Her : @eta p e <= d * r).
  { apply Rle_trans with (uround p * r); [|apply Rmult_le_compat_r; lra].
    apply Rle_trans with (uround p * bpow radix2 (2 - e)).
    - unfold eta, uround. rewrite <- bpow_plus. apply bpow_le. lia.
    - apply Rmult_le_compat_l; [lra|]. eapply Rle_trans; [|exact kr]. apply bpow_le. pose proof (@emax_pos p e Hp He). lia. }
  assert (Hc : forall v, In v (svs np na) -> close_to c (fpos f g h pi L np na s v : vec (binary_float p e) 3) (spos np na (vreal o) r v)).
  { intros v Hv. apply (fpos_close H2 f g h pi d Ht Hd L np na s t M Hnp Hna Fr Hr Hre Her Fo HoM HM HL npN naN v (svs_ok np na v Hv)). }
  assert (Ha : forall v w, In v (svs np na) -> In w (svs np na) -> v <> w ->
    exists i, (i < 3)%nat /\ 2 * c + t + bpow radix2 k <= Rabs (vnth 0 i (spos np na (vreal o) r v) - vnth 0 i (spos np na (vreal o) r w))).
  { intros v w Hv Hw Hne. destruct (spos_apart np na Hnp Hna (vreal o) r Hr v w (svs_ok np na v Hv) (svs_ok np na w Hw) Hne) as (i & Hi & K).
    exists i. split; [exact Hi|]. eapply Rle_trans; [|exact K]. fold N. apply Rmult_le_reg_r with N; [lra|].
    unfold Rdiv. rewrite Rmult_assoc, Rinv_l, Rmult_1_r by lra.
    apply Rle_trans with (3 * (N * (c + bpow radix2 k))); [|lra].
    replace (3 * (N * (c + bpow radix2 k))) with (3 * (c + bpow radix2 k) * N) by ring. apply Rmult_le_compat_r; [lra|]. unfold c. lra. }
  change (fpos f g h pi L np na s) with fp in Hc.
  assert (Ep : sphere_points L np na s = map fp (svs np na)) by (apply sphere_points_map; assumption).
  pose proof (fp_nodup f g h pi L t HL k svert_dec (svs np na) fp _ c Hc Ha (svs_nodup np na)) as Hnd.
  pose proof (fp_separated f g h pi L t HL k Hk svert_dec (svs np na) fp _ c Hc Ha) as Hs.
  pose proof (fp_veq f g h pi L t HL k svert_dec (svs np na) fp _ c Hc Ha) as Hv.
  rewrite <- Ep in Hnd, Hs, Hv. repeat (split; [assumption|]). assumption.
Qed.

(** ** C68: the sphere.  [d] is the accuracy of cosine, sine and pi, [t] the
    tolerance of [operator==] on vectors, [M] bounds the coordinates of the
    centre.  If the sphere is not too small for the number of its vertices, and
    not near the largest numbers, the mesh is a closed surface whose vertices are
    one near each exact one. *)
Theorem C68_sphere :
  forall p e Hp He, (2 < p)%Z -> forall f g h pi,
  let S := IEEE p e Hp He f g h pi in
  forall (L : Linal S) W meq dbg self SZ (k : Z) (np na : nat) (o0 : point S) (s : sphere S) (d t M : R),
    (2 <= np)%nat -> (3 <= na)%nat -> (6 * na * (np - 1) < W)%nat -> meq hidentity hidentity = true ->
    trig_accurate d f g pi -> equal_within L t -> (3 - e - p <= 2 * k)%Z ->
    let o := s_origin s : vec (binary_float p e) 3 in let r := B2R (s_radius s : binary_float p e) in
    finite_pt o -> (forall i, (i < 3)%nat -> Rabs (fval i o) <= M) -> M <= bpow radix2 (e - 2) ->
    is_finite (s_radius s : binary_float p e) = true -> 0 < r <= bpow radix2 (e - 2) ->
    let c := 64 * (d * r) + uround p * M + t in
    INR np * INR na * (c + bpow radix2 k) <= r ->
    exists m, mb_sphere L W meq dbg self SZ np na o0 s = Ok m /\
      closed_on W dbg self (m_points m) (2 * na * (np - 1)) m /\
      NoDup (m_points m) /\ length (m_points m) = ((np - 1) * na + 2)%nat /\
      (forall x : vec (binary_float p e) 3, In x (m_points m) -> exists q, sphere_grid np na (vreal o) r q /\ close_to c x q) /\
      (forall q, sphere_grid np na (vreal o) r q -> exists! x : vec (binary_float p e) 3, In x (m_points m) /\ close_to c x q).
Proof.
  intros p e Hp He H2 f g h pi S L W meq dbg self SZ k np na o0 s d t M Hnp Hna HW Hid Ht HL Hk o r Fo HoM HM Fr (Hr & Hre) c Hsep.
  destruct (sphere_setup p e Hp He H2 f g h pi L W meq k np na s d t M Hnp Hna HW Hid Ht HL Hk Fo HoM HM Fr (conj Hr Hre) Hsep) as (Ep & Hnd & Hs & Hv & Hc & Ha).
  set (fp := fpos f g h pi L np na s) in *.
  destruct (C61_sphere_partial p e Hp He H2 f g h pi L W meq dbg self SZ k np na o0 s Hnp Hna HW Hid Hnd Hs Hv) as (m & Em & V1 & V2 & V3 & V4 & V5 & V6).
  assert (Hin : forall x, In x (m_points m) <-> In x (map fp (svs np na))).
  { intros x. rewrite <- Ep. split; apply Permutation_in; [exact V3|symmetry; exact V3]. }
  exists m. split; [exact Em|]. split.
  { split; [exact V1|]. split; [exact V2|]. split; [reflexivity|]. split; [exact (eq_trans V4 (eq_sym (Permutation_length V3)))|]. split; [exact V5|exact V6]. }
  split; [apply (Permutation_NoDup (l := sphere_points L np na s)); [symmetry; exact V3|exact Hnd]|].
  split; [exact (eq_trans (Permutation_length V3) (sphere_points_length L np na s))|]. split.
  - intros x Hx. apply Hin in Hx. apply in_map_iff in Hx as (v & <- & Hv'). exists (spos np na (vreal o) r v).
    split; [|exact (Hc v Hv')]. apply (spos_grid np na Hnp Hna). exists v. split; [exact (svs_ok np na v Hv')|reflexivity].
  - intros q Hq. apply (spos_grid np na Hnp Hna) in Hq as (v & Hv' & ->).
    assert (Iv : In v (svs np na)) by exact (svs_all np na v Hv').
    exists (fp v). split.
    + split; [apply Hin; apply in_map; exact Iv|exact (Hc v Iv)].
    + intros x (Hx & Hcl). symmetry. apply (fp_unique f g h pi L t HL k svert_dec (svs np na) fp _ c Hc Ha v x Iv); [apply Hin; exact Hx|exact Hcl].
Qed.
Print Assumptions C68_sphere.

(** the same for double precision, with cosine, sine and pi accurate to [2^-52] and
    vectors compared exactly: centres up to a million radii from the origin, up
    to a billion vertices *)
Corollary C68_sphere_double :
  forall f g h pi, let S := B64 f g h pi in
  forall (L : Linal S) W meq dbg self SZ (np na : nat) (o0 : point S) (s : sphere S),
    (2 <= np)%nat -> (3 <= na)%nat -> INR np * INR na <= bpow radix2 30 -> (6 * na * (np - 1) < W)%nat -> meq hidentity hidentity = true ->
    trig_accurate (bpow radix2 (-52)) f g pi -> equal_within L 0 ->
    let o := s_origin s : vec b64 3 in let r := B2R (s_radius s : b64) in
    finite_pt o -> is_finite (s_radius s : b64) = true -> bpow radix2 (-300) <= r <= bpow radix2 900 ->
    (forall i, (i < 3)%nat -> Rabs (fval i o) <= bpow radix2 20 * r) ->
    exists m, mb_sphere L W meq dbg self SZ np na o0 s = Ok m /\
      closed_on W dbg self (m_points m) (2 * na * (np - 1)) m /\
      NoDup (m_points m) /\ length (m_points m) = ((np - 1) * na + 2)%nat /\
      forall x : vec b64 3, In x (m_points m) -> exists q, sphere_grid np na (vreal o) r q /\ close_to (bpow radix2 (-32) * r) x q.
Proof.
  intros f g h pi S L W meq dbg self SZ np na o0 s Hnp Hna HN HW Hid Ht HL o r Fo Fr (Hr1 & Hr2) Ho.
  pose proof (bpow_gt_0 radix2 (-300)) as B0. pose proof (bpow_gt_0 radix2 (-52)) as B1. pose proof (bpow_gt_0 radix2 20) as B2.
  assert (r0 : 0 < r) by lra.
  assert (E1 : bpow radix2 (-52) = bpow radix2 (-53) * 2) by (change 2 with (bpow radix2 1); rewrite <- bpow_plus; reflexivity).
  assert (E2 : bpow radix2 (-53) * bpow radix2 20 = bpow radix2 (-33)) by (rewrite <- bpow_plus; reflexivity).
  assert (E3 : 128 * bpow radix2 (-53) = bpow radix2 (-46)) by (change 128 with (bpow radix2 7); rewrite <- bpow_plus; reflexivity).
  assert (E4 : bpow radix2 (-46) <= bpow radix2 (-34)) by (apply bpow_le; lia).
  assert (E5 : bpow radix2 (-33) = 2 * bpow radix2 (-34)) by (change 2 with (bpow radix2 1); rewrite <- bpow_plus; reflexivity).
  assert (E6 : bpow radix2 (-32) = 4 * bpow radix2 (-34)) by (change 4 with (bpow radix2 2); rewrite <- bpow_plus; reflexivity).
  assert (E7 : bpow radix2 (-340) <= bpow radix2 (-34) * r).
  { replace (bpow radix2 (-340)) with (bpow radix2 (-40) * bpow radix2 (-300)) by (rewrite <- bpow_plus; reflexivity).
    apply Rmult_le_compat; try apply bpow_ge_0; [apply bpow_le; lia|exact Hr1]. }
  assert (Hm : bpow radix2 20 * r <= bpow radix2 (1024 - 2)).
  { apply Rle_trans with (bpow radix2 20 * bpow radix2 900); [apply Rmult_le_compat_l; lra|]. rewrite <- bpow_plus. apply bpow_le. lia. }
  assert (Hre : r <= bpow radix2 (1024 - 2)) by (eapply Rle_trans; [exact Hr2|]; apply bpow_le; lia).
  assert (Hsum : 64 * (bpow radix2 (-52) * r) + uround 53 * (bpow radix2 20 * r) + 0 <= 3 * bpow radix2 (-34) * r).
  { unfold uround. change (- (53))%Z with (-53)%Z. replace (64 * (bpow radix2 (-52) * r)) with (bpow radix2 (-46) * r) by (rewrite <- E3, E1; ring).
    rewrite <- Rmult_assoc, E2, E5. assert (bpow radix2 (-46) * r <= bpow radix2 (-34) * r) by (apply Rmult_le_compat_r; lra). lra. }
  destruct (C68_sphere 53 1024 prec53 prec_emax64 eq_refl f g h pi L W meq dbg self SZ (-340) np na o0 s (bpow radix2 (-52)) 0 (bpow radix2 20 * r)
    Hnp Hna HW Hid Ht HL ltac:(lia) Fo Ho Hm Fr (conj r0 Hre)) as (m & Em & V1 & V2 & V3 & V4 & _).
  - apply Rle_trans with (bpow radix2 30 * (4 * bpow radix2 (-34) * r)).
    + apply Rmult_le_compat; [apply Rmult_le_pos; apply pos_INR| |exact HN|].
      * assert (0 <= uround 53 * (bpow radix2 20 * r)) by (apply Rmult_le_pos; [apply bpow_ge_0|apply Rmult_le_pos; lra]).
        assert (0 <= bpow radix2 (-52) * r) by (apply Rmult_le_pos; lra). pose proof (bpow_gt_0 radix2 (-340)). match goal with |- context [B2R ?x] => change (B2R x) with r end. lra.
      * match goal with |- context [B2R ?x] => change (B2R x) with r end. lra.
    + rewrite <- E6, <- Rmult_assoc, <- bpow_plus. change (bpow radix2 (30 + -32)) with (/ 4).
      match goal with |- _ <= B2R ?x => change (B2R x) with r end. lra.
  - exists m. split; [exact Em|]. split; [exact V1|]. split; [exact V2|]. split; [exact V3|].
    intros x Hx. destruct (V4 x Hx) as (q & Hq & F & C). exists q. split; [exact Hq|]. split; [exact F|]. intros i Hi. eapply Rle_trans; [exact (C i Hi)|].
    match goal with |- context [B2R ?x] => change (B2R x) with r end. rewrite E6. pose proof (bpow_gt_0 radix2 (-34)). assert (0 <= bpow radix2 (-34) * r) by (apply Rmult_le_pos; lra). lra.
Qed.
Print Assumptions C68_sphere_double.

(** ** Correctly rounded functions meet the condition *)
Definition bround p e Hp He (x : R) : binary_float p e :=
  ieee_pow p e Hp He (ZnearestE (scaled_mantissa radix2 (fexpf p e) x)) (cexp radix2 (fexpf p e) x).
Lemma bround_spec p e Hp He x : Rabs (rndf p e x) < bpow radix2 e ->
  is_finite (bround p e Hp He x) = true /\ B2R (bround p e Hp He x) = rndf p e x.
Proof.
  intros H. unfold bround, ieee_pow.
  pose proof (binary_normalize_correct p e Hp He mode_NE (ZnearestE (scaled_mantissa radix2 (fexpf p e) x)) (cexp radix2 (fexpf p e) x) false) as K.
  cbn zeta in K. cbn [round_mode] in K. rewrite rnd_change in K.
  change (F2R _) with (rndf p e x) in K.
  assert (E : rndf p e (rndf p e x) = rndf p e x) by (apply rnd_id; apply (@rnd_fmt p e Hp)).
  rewrite E, Rlt_bool_true in K by exact H. destruct K as (K1 & K2 & _). auto.
Qed.
Lemma rounded_trig p e (Hp : Prec_gt_0 p) (He : Prec_lt_emax p e) : (2 < p)%Z ->
  trig_accurate (2 * uround p) (fun x : binary_float p e => bround p e Hp He (cos (B2R x))) (fun x => bround p e Hp He (sin (B2R x))) (bround p e Hp He PI).
Proof.
  intros H2. pose proof (@u_pos p) as Hu. pose proof (@eta_u p e Hp He H2) as Ee. pose proof (@pow_e p e Hp He H2) as Hpe.
  assert (u8 : uround p <= 1 / 8).
  { replace (1 / 8) with (bpow radix2 (-3)) by (cbn; field). apply bpow_le. lia. }
  assert (K : forall x c, Rabs x <= c -> 1 <= c <= 4 -> is_finite (bround p e Hp He x) = true /\ Rabs (B2R (bround p e Hp He x) - x) <= 2 * c * uround p).
  { intros x c Hx Hc. pose proof (@rnd_near p e Hp x) as N.
    assert (N' : Rabs (rndf p e x - x) <= 2 * c * uround p).
    { assert (uround p * Rabs x <= uround p * c) by (apply Rmult_le_compat_l; lra). assert (uround p * 1 <= uround p * c) by (apply Rmult_le_compat_l; lra). lra. }
    destruct (bround_spec p e Hp He x) as (F & E).
    - replace (rndf p e x) with (x + (rndf p e x - x)) by ring. eapply Rle_lt_trans; [apply Rabs_triang|].
      assert (c * uround p <= 4 * (1 / 8)) by (apply Rmult_le_compat; lra). lra.
    - split; [exact F|]. rewrite E. exact N'. }
  split.
  - lra.
  - destruct (K PI 4 PI_abs ltac:(lra)) as (F & E). split; [exact F|]. lra.
  - intros x _ _. destruct (K _ 1 (abs_cos_1 (B2R x)) ltac:(lra)) as (F & E). split; [exact F|]. lra.
  - intros x _ _. destruct (K _ 1 (abs_sin_1 (B2R x)) ltac:(lra)) as (F & E). split; [exact F|]. lra.
Qed.

(** exact comparison *)
Lemma raw_within p e Hp He f g h pi z : let S := IEEE p e Hp He f g h pi in equal_within (raw_linal S z) 0.
Proof.
  intros S. split.
  - lra.
  - intros n x Fx. apply raw_exact. intros i Hi. change (Beqb (vnth (B754_zero false) i x) (vnth (B754_zero false) i x) = true).
    rewrite Beqb_correct by exact (Fx i Hi). apply Req_bool_true. reflexivity.
  - intros n x y Fx Fy H i Hi. pose proof (proj1 (raw_exact S z n x y) H i Hi) as K.
    change (Beqb (vnth (B754_zero false) i x) (vnth (B754_zero false) i y) = true) in K. apply eqb_B2R in K as (_ & K); [|exact (Fy i Hi)].
    unfold fval. rewrite K. unfold Rminus. rewrite Rplus_opp_r, Rabs_R0. lra.
Qed.
(** the hypotheses of C68: the sphere with radius 2 around (1, 2, 3), 16 times 32
    steps, in double precision with correctly rounded functions *)
Definition ccos (x : b64) : b64 := bround 53 1024 prec53 prec_emax64 (cos (B2R x)).
Definition csin (x : b64) : b64 := bround 53 1024 prec53 prec_emax64 (sin (B2R x)).
Definition cpi : b64 := bround 53 1024 prec53 prec_emax64 PI.
Definition CS : Scalar := B64 ccos csin (fun x => x) cpi.
Definition csphere : sphere CS := @mkSphere CS (mk3 (b64_ofZ 1) (b64_ofZ 2) (b64_ofZ 3)) (b64_ofZ 2).
Lemma b64_small z : (Z.abs z < 2 ^ 53)%Z -> is_finite (b64_ofZ z) = true /\ B2R (b64_ofZ z) = IZR z.
Proof.
  intros H. destruct (@pow_spec 53 1024 prec53 prec_emax64 z 0 H ltac:(lia) ltac:(lia)) as (F & E). split; [exact F|].
  unfold b64_ofZ, b64_pow. rewrite E. cbn. ring.
Qed.
Example C68_example :
  (2 <= 16)%nat /\ (3 <= 32)%nat /\ (6 * 32 * (16 - 1) < 5000)%nat /\ INR 16 * INR 32 <= bpow radix2 30 /\
  trig_accurate (bpow radix2 (-52)) ccos csin cpi /\ equal_within (raw_linal CS s0) 0 /\
  let o := s_origin csphere : vec b64 3 in let r := B2R (s_radius csphere : b64) in
  finite_pt o /\ is_finite (s_radius csphere : b64) = true /\ bpow radix2 (-300) <= r <= bpow radix2 900 /\
  (forall i, (i < 3)%nat -> Rabs (fval i o) <= bpow radix2 20 * r).
Proof.
  destruct (b64_small 1 ltac:(lia)) as (F1 & E1). destruct (b64_small 2 ltac:(lia)) as (F2 & E2). destruct (b64_small 3 ltac:(lia)) as (F3 & E3).
  split; [lia|]. split; [lia|]. split; [lia|]. split; [cbn; lra|]. split.
  { replace (bpow radix2 (-52)) with (2 * uround 53) by (unfold uround; change 2 with (bpow radix2 1); rewrite <- bpow_plus; reflexivity).
    apply (rounded_trig 53 1024 prec53 prec_emax64). lia. }
  split; [apply raw_within|]. intros o r. assert (Er : r = 2) by exact E2.
  split; [intros [|[|[|i]]] Hi; [exact F1|exact F2|exact F3|lia]|]. split; [exact F2|]. rewrite Er. split.
  - split; [change 2 with (bpow radix2 1)|change 2 with (bpow radix2 1)]; apply bpow_le; lia.
  - assert (B : 2 <= bpow radix2 20) by (change 2 with (bpow radix2 1); apply bpow_le; lia).
    assert (K : forall x, Rabs x <= 3 -> Rabs x <= bpow radix2 20 * 2) by (intros x Hx; lra).
    intros [|[|[|i]]] Hi; [| | |lia]; apply K; unfold fval; cbn [vnth o csphere s_origin mk3 fst snd].
    + rewrite E1, Rabs_pos_eq; lra.
    + rewrite E2, Rabs_pos_eq; lra.
    + rewrite E3, Rabs_pos_eq; lra.
Qed.
