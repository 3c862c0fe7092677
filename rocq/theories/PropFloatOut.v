(** * Property theorems: the facets of tessellations in floating point face outwards (C79) *)

From Coq Require Import List Arith Bool Lia Permutation ZArith Reals Lra.
From Flocq Require Import Core BinarySingleNaN.
From Verif Require Import Scalar Linal Result SpecReal VecR VecLemmas ModelKdTree SpecKdTree SpecTransform SpecIEEE SpecFloatErr SpecFloatTess SpecFloatOut
  ModelShapes ModelTransform ModelMesh SpecMesh ModelTess SpecTess ProofTransform ProofTessComb ProofTessConn ProofTessMesh ProofTessSphere ProofTessRound ProofTess ProofVolume ProofConvex
  ProofRound ProofIEEE ProofFloatErr ProofFloatDist ProofFloatTrig ProofTessSafe ProofMeshIEEE ProofFloatTess ProofFloatRound ProofFloatOut PropMeshIEEE PropFloatTess PropFloatRound.
Import ListNotations.
Local Open Scope R_scope.

Lemma map_eq_in {A B} (f g : A -> B) l : map f l = map g l -> forall x, In x l -> f x = g x.
Proof. induction l as [|y l IH]; cbn; intros E x H; [contradiction|]. injection E as E1 E2. destruct H as [<-|H]; [exact E1|apply IH; assumption]. Qed.
Lemma corners_in {V} (tris : list (V * V * V)) (ok : V -> Prop) : (forall v, In v (flat3 tris) <-> ok v) -> forall x y z, In (x, y, z) tris -> ok x /\ ok y /\ ok z.
Proof. intros H x y z Hin. repeat split; apply H, flat3_In; exists x, y, z; auto. Qed.

(** ** C79: the sphere.  As C68, for a sphere that is not too small for the number of its
    facets; [K] is a scale that the coordinates fit. *)
Lemma sphere_ready :
  forall p e Hp He, (2 < p)%Z -> forall f g h pi,
  let S := IEEE p e Hp He f g h pi in
  forall (L : Linal S) W meq dbg self SZ (k K : Z) (np na : nat) (o0 : point S) (s : sphere S) (d t M : R),
    (2 <= np)%nat -> (3 <= na)%nat -> (6 * na * (np - 1) < W)%nat -> meq hidentity hidentity = true ->
    trig_accurate d f g pi -> equal_within L t -> (3 - e - p <= 2 * k)%Z ->
    let o := s_origin s : vec (binary_float p e) 3 in let r := B2R (s_radius s : binary_float p e) in
    finite_pt o -> (forall i, (i < 3)%nat -> Rabs (fval i o) <= M) -> M <= bpow radix2 (e - 2) ->
    is_finite (s_radius s : binary_float p e) = true -> 0 < r <= bpow radix2 (e - 2) ->
    let c := 64 * (d * r) + uround p * M + t in
    INR np * INR na * (c + bpow radix2 k) <= r -> INR np * INR np * INR na * (2 * c) <= r ->
    scale_frame p e K r (8 * (r * r * r) / (INR np * INR np * INR na)) ->
    exists m, mb_sphere L W meq dbg self SZ np na o0 s = Ok m /\ length (m_facets m) = (2 * na * (np - 1))%nat /\ ready L self m (vreal o) r c (8 * (r * r * r) / (INR np * INR np * INR na)) K (2 * na * (np - 1)).
Proof.
  intros p e Hp He H2 f g h pi S L W meq dbg self SZ k K np na o0 s d t M Hnp Hna HW Hid Ht HL Hk o r Fo HoM HM Fr (Hr & Hre) c Hsep Hout Hfr.
  destruct (sphere_setup p e Hp He H2 f g h pi L W meq k np na s d t M Hnp Hna HW Hid Ht HL Hk Fo HoM HM Fr (conj Hr Hre) Hsep) as (Ep & Hnd & Hs & Hv & Hc & _).
  destruct (sphere_built p e Hp He H2 f g h pi L W meq dbg self SZ k np na o0 s Hnp Hna HW Hid Hnd Hs Hv) as (m & Em & (_ & _ & _ & _ & _ & V6) & pos & Hpos & Hw).
  exists m. split; [exact Em|]. split; [exact V6|].
  pose proof (@u_pos p) as Hu. pose proof (ta_round _ _ _ _ Ht) as Hud. pose proof (ew_slack _ _ HL) as t0.
  assert (P : 2 <= INR np) by exact (INR_p np Hnp). assert (A : 3 <= INR na) by exact (INR_a na Hna).
  assert (M0 : 0 <= M) by (eapply Rle_trans; [apply Rabs_pos|apply (HoM 0%nat); lia]).
  assert (uM : 0 <= uround p * M) by (apply Rmult_le_pos; lra).
  set (N := INR np * INR np * INR na) in *.
  assert (N12 : 12 <= N). { unfold N. assert (2 * 2 <= INR np * INR np) by (apply Rmult_le_compat; lra). assert (4 * 3 <= INR np * INR np * INR na) by (apply Rmult_le_compat; lra). lra. }
  assert (dr : uround p * r <= d * r) by (apply Rmult_le_compat_r; lra).
  assert (Nu : N * (128 * uround p) <= 1).
  { apply Rmult_le_reg_r with r; [exact Hr|]. rewrite Rmult_1_l. eapply Rle_trans; [|exact Hout]. rewrite Rmult_assoc. apply Rmult_le_compat_l; [lra|]. unfold c. lra. }
  assert (RRR : 0 < r * r * r) by (repeat apply Rmult_lt_0_compat; assumption).
  assert (LE : forall x, N * x <= 8 * (r * r * r) -> x <= 8 * (r * r * r) / N).
  { intros x Hx. apply Rmult_le_reg_l with N; [lra|]. replace (N * (8 * (r * r * r) / N)) with (8 * (r * r * r)) by (field; lra). exact Hx. }
  assert (Hps : forall v, In v (svs np na) -> pos v = fpos f g h pi L np na s v).
  { apply map_eq_in. exact (eq_trans Hpos Ep). }
  assert (Hall : forall v, sv_ok np na v -> In v (svs np na)).
  { exact (svs_all np na). }
  apply (mk_ready f g h pi L self _ Hv (map (ctri np na) (ctags np na)) pos m (fun v => In v (svs np na)) (spos np na (vreal o) r) (vreal o) r c (8 * (r * r * r) / N) K).
  - rewrite map_length. rewrite ctags_length by assumption. lia.
  - exact Hw.
  - intros x y z Hin. destruct (corners_in _ _ (sphere_corner np na Hnp Hna) x y z Hin) as (A1 & A2 & A3). auto.
  - intros v Hin. exact (eq_ind _ (fun l => In (pos v) l) (in_map pos (svs np na) v Hin) _ Hpos).
  - intros v Hin. rewrite (Hps v Hin). exact (Hc v Hin).
  - intros v Hin. right. apply (spos_on_sphere np na (vreal o) r Hr). apply (spos_grid np na Hnp Hna). exists v. split; [exact (svs_ok np na v Hin)|reflexivity].
  - intros x y z Hin. apply (ctri_sixvol np na Hnp Hna (vreal o) r Hr x y z Hin).
  - apply Rdiv_lt_0_compat; lra.
  - apply LE. replace (N * (16 * (r * r) * c)) with (8 * (r * r) * (N * (2 * c))) by ring. replace (8 * (r * r * r)) with (8 * (r * r) * r) by ring.
    apply Rmult_le_compat_l; [|exact Hout]. assert (0 <= r * r) by (apply Rle_0_sqr). lra.
  - apply LE. replace (N * (500 * uround p * (r * r * r))) with (N * (128 * uround p) * (500 / 128 * (r * r * r))) by field.
    apply Rle_trans with (1 * (500 / 128 * (r * r * r))); [apply Rmult_le_compat_r; lra|lra].
  - assert (12 * (128 * uround p) <= N * (128 * uround p)) by (apply Rmult_le_compat_r; lra). lra.
  - exact Hfr.
Qed.

Theorem C79_sphere :
  forall p e Hp He, (2 < p)%Z -> forall f g h pi,
  let S := IEEE p e Hp He f g h pi in
  forall (L : Linal S) W meq dbg self SZ (k K : Z) (np na : nat) (o0 : point S) (s : sphere S) (d t M : R),
    (2 <= np)%nat -> (3 <= na)%nat -> (6 * na * (np - 1) < W)%nat -> meq hidentity hidentity = true ->
    trig_accurate d f g pi -> equal_within L t -> (3 - e - p <= 2 * k)%Z ->
    let o := s_origin s : vec (binary_float p e) 3 in let r := B2R (s_radius s : binary_float p e) in
    finite_pt o -> (forall i, (i < 3)%nat -> Rabs (fval i o) <= M) -> M <= bpow radix2 (e - 2) ->
    is_finite (s_radius s : binary_float p e) = true -> 0 < r <= bpow radix2 (e - 2) ->
    let c := 64 * (d * r) + uround p * M + t in
    INR np * INR na * (c + bpow radix2 k) <= r -> INR np * INR np * INR na * (2 * c) <= r ->
    scale_frame p e K r (8 * (r * r * r) / (INR np * INR np * INR na)) ->
    exists m, mb_sphere L W meq dbg self SZ np na o0 s = Ok m /\ length (m_facets m) = (2 * na * (np - 1))%nat /\ float_outward self m (vreal o).
Proof.
  intros p e Hp He H2 f g h pi S L W meq dbg self SZ k K np na o0 s d t M Hnp Hna HW Hid Ht HL Hk o r Fo HoM HM Fr (Hr & Hre) c Hsep Hout Hfr.
  destruct (sphere_ready p e Hp He H2 f g h pi L W meq dbg self SZ k K np na o0 s d t M Hnp Hna HW Hid Ht HL Hk Fo HoM HM Fr (conj Hr Hre) Hsep Hout Hfr) as (m & Em & Hl & Hrd).
  exists m. split; [exact Em|]. split; [exact Hl|]. exact (ready_outward f g h pi L self m _ _ _ _ _ _ Hrd).
Qed.
Print Assumptions C79_sphere.

(** the same for double precision, with cosine, sine and pi accurate to [2^-52] and
    vectors compared exactly *)
Lemma sphere_double_ready :
  forall f g h pi, let S := B64 f g h pi in
  forall (L : Linal S) W meq dbg self SZ (np na : nat) (o0 : point S) (s : sphere S),
    (2 <= np)%nat -> (3 <= na)%nat -> INR np * INR np * INR na <= bpow radix2 30 -> (6 * na * (np - 1) < W)%nat -> meq hidentity hidentity = true ->
    trig_accurate (bpow radix2 (-52)) f g pi -> equal_within L 0 ->
    let o := s_origin s : vec b64 3 in let r := B2R (s_radius s : b64) in
    finite_pt o -> is_finite (s_radius s : b64) = true -> bpow radix2 (-180) <= r <= bpow radix2 180 ->
    (forall i, (i < 3)%nat -> Rabs (fval i o) <= bpow radix2 20 * r) ->
    exists m, mb_sphere L W meq dbg self SZ np na o0 s = Ok m /\ length (m_facets m) = (2 * na * (np - 1))%nat /\ 
      ready L self m (vreal o) r (64 * (bpow radix2 (-52) * r) + uround 53 * (bpow radix2 20 * r) + 0) (8 * (r * r * r) / (INR np * INR np * INR na)) 212 (2 * na * (np - 1)).
Proof.
  intros f g h pi S L W meq dbg self SZ np na o0 s Hnp Hna HN HW Hid Ht HL o r Fo Fr (Hr1 & Hr2) Ho.
  pose proof (bpow_gt_0 radix2 (-180)) as B0. pose proof (bpow_gt_0 radix2 (-52)) as B1. pose proof (bpow_gt_0 radix2 20) as B2. pose proof (bpow_gt_0 radix2 (-34)) as B34.
  assert (r0 : 0 < r) by lra. assert (s34 : 0 < bpow radix2 (-34) * r) by (apply Rmult_lt_0_compat; assumption).
  assert (E1 : bpow radix2 (-52) = bpow radix2 (-53) * 2) by (change 2 with (bpow radix2 1); rewrite <- bpow_plus; reflexivity).
  assert (E2 : bpow radix2 (-53) * bpow radix2 20 = bpow radix2 (-33)) by (rewrite <- bpow_plus; reflexivity).
  assert (E3 : 128 * bpow radix2 (-53) = bpow radix2 (-46)) by (change 128 with (bpow radix2 7); rewrite <- bpow_plus; reflexivity).
  assert (E4 : bpow radix2 (-46) <= bpow radix2 (-34)) by (apply bpow_le; lia).
  assert (E5 : bpow radix2 (-33) = 2 * bpow radix2 (-34)) by (change 2 with (bpow radix2 1); rewrite <- bpow_plus; reflexivity).
  assert (E6 : bpow radix2 30 * bpow radix2 (-34) = / 16) by (rewrite <- bpow_plus; reflexivity).
  assert (E7 : bpow radix2 (-340) <= bpow radix2 (-34) * r).
  { replace (bpow radix2 (-340)) with (bpow radix2 (-160) * bpow radix2 (-180)) by (rewrite <- bpow_plus; reflexivity).
    apply Rmult_le_compat; try apply bpow_ge_0; [apply bpow_le; lia|exact Hr1]. }
  assert (Hm : bpow radix2 20 * r <= bpow radix2 (1024 - 2)).
  { apply Rle_trans with (bpow radix2 20 * bpow radix2 180); [apply Rmult_le_compat_l; lra|]. rewrite <- bpow_plus. apply bpow_le. lia. }
  assert (Hre : r <= bpow radix2 (1024 - 2)) by (eapply Rle_trans; [exact Hr2|]; apply bpow_le; lia).
  set (c := 64 * (bpow radix2 (-52) * r) + uround 53 * (bpow radix2 20 * r) + 0).
  assert (Hsum : c <= 3 * bpow radix2 (-34) * r).
  { unfold c, uround. change (- (53))%Z with (-53)%Z. replace (64 * (bpow radix2 (-52) * r)) with (bpow radix2 (-46) * r) by (rewrite <- E3, E1; ring).
    rewrite <- Rmult_assoc, E2, E5. assert (bpow radix2 (-46) * r <= bpow radix2 (-34) * r) by (apply Rmult_le_compat_r; lra). lra. }
  assert (c0 : 0 <= c).
  { assert (0 <= uround 53 * (bpow radix2 20 * r)) by (apply Rmult_le_pos; [apply bpow_ge_0|apply Rmult_le_pos; lra]). assert (0 <= bpow radix2 (-52) * r) by (apply Rmult_le_pos; lra). unfold c. lra. }
  assert (P : 2 <= INR np) by exact (INR_p np Hnp). assert (A : 3 <= INR na) by exact (INR_a na Hna).
  set (N := INR np * INR np * INR na) in *. assert (PA : 2 * 3 <= INR np * INR na) by (apply Rmult_le_compat; lra).
  assert (N1 : INR np * INR na <= N). { unfold N. rewrite Rmult_assoc. apply Rle_trans with (1 * (INR np * INR na)); [lra|]. apply Rmult_le_compat_r; lra. }
  assert (Nc : forall x, 0 <= x <= 6 * bpow radix2 (-34) * r -> N * x <= r).
  { intros x Hx. apply Rle_trans with (bpow radix2 30 * (6 * bpow radix2 (-34) * r)); [apply Rmult_le_compat; [lra|apply Hx|exact HN|apply Hx]|]. replace (bpow radix2 30 * (6 * bpow radix2 (-34) * r)) with (6 * (bpow radix2 30 * bpow radix2 (-34)) * r) by ring. rewrite E6. lra. }
  pose proof (bpow_gt_0 radix2 (-340)) as B340.
  apply (sphere_ready 53 1024 prec53 prec_emax64 eq_refl f g h pi L W meq dbg self SZ (-340) 212 np na o0 s (bpow radix2 (-52)) 0 (bpow radix2 20 * r)
    Hnp Hna HW Hid Ht HL ltac:(lia) Fo Ho Hm Fr (conj r0 Hre)); match goal with |- context [B2R ?x] => change (B2R x) with r end.
  - fold c. change (INR np * INR na * (c + bpow radix2 (-340)) <= r).
    apply Rle_trans with (N * (c + bpow radix2 (-340))); [apply Rmult_le_compat_r; lra|]. apply Nc. lra.
  - fold c. change (N * (2 * c) <= r). apply Nc. lra.
  - fold N. split; [lia|]. split; [lia|]. split.
    + apply Rle_trans with (bpow radix2 2 * bpow radix2 180); [change (bpow radix2 2) with 4; apply Rmult_le_compat_l; [lra|exact Hr2]|]. rewrite <- bpow_plus. apply bpow_le. lia.
    + apply Rmult_le_reg_l with N; [lra|]. replace (N * (8 * (r * r * r) / N)) with (8 * r * (r * r)) by (field; lra).
      change (bpow radix2 (Z.opp 212)) with (bpow radix2 (-212)). replace (N * (6 * (r * r) * bpow radix2 (-212))) with (6 * (N * bpow radix2 (-212)) * (r * r)) by ring. apply Rmult_le_compat_r; [apply Rle_0_sqr|].
      assert (Q : N * bpow radix2 (-212) <= bpow radix2 30 * bpow radix2 (-212)) by (apply Rmult_le_compat_r; [apply bpow_ge_0|exact HN]). rewrite <- bpow_plus in Q. change (30 + -212)%Z with (-182)%Z in Q.
      assert (bpow radix2 (-182) <= bpow radix2 (-180)) by (apply bpow_le; lia). lra.
Qed.

Corollary C79_sphere_double :
  forall f g h pi, let S := B64 f g h pi in
  forall (L : Linal S) W meq dbg self SZ (np na : nat) (o0 : point S) (s : sphere S),
    (2 <= np)%nat -> (3 <= na)%nat -> INR np * INR np * INR na <= bpow radix2 30 -> (6 * na * (np - 1) < W)%nat -> meq hidentity hidentity = true ->
    trig_accurate (bpow radix2 (-52)) f g pi -> equal_within L 0 ->
    let o := s_origin s : vec b64 3 in let r := B2R (s_radius s : b64) in
    finite_pt o -> is_finite (s_radius s : b64) = true -> bpow radix2 (-180) <= r <= bpow radix2 180 ->
    (forall i, (i < 3)%nat -> Rabs (fval i o) <= bpow radix2 20 * r) ->
    exists m, mb_sphere L W meq dbg self SZ np na o0 s = Ok m /\ length (m_facets m) = (2 * na * (np - 1))%nat /\ float_outward self m (vreal o).
Proof.
  intros f g h pi S L W meq dbg self SZ np na o0 s Hnp Hna HN HW Hid Ht HL o r Fo Fr Hr Ho.
  destruct (sphere_double_ready f g h pi L W meq dbg self SZ np na o0 s Hnp Hna HN HW Hid Ht HL Fo Fr Hr Ho) as (m & Em & Hl & Hrd).
  exists m. split; [exact Em|]. split; [exact Hl|]. exact (ready_outward f g h pi L self m _ _ _ _ _ _ Hrd).
Qed.
Print Assumptions C79_sphere_double.

(** The cone: the middle of the axis is inside. *)
Lemma affine_mid (A : vec (vec R 3) 3) (s t : vec R 3) : 0 < rdist t s -> rotation_onto A (rdirection (rsub t s)) ->
  affine A s (0, (0, (rdist t s / 2, tt))) = rscale (1 / 2) (radd s t).
Proof.
  intros Hl (_ & _ & E). rewrite affine_z, E. unfold rdirection. change (rnorm (rsub t s)) with (rdist t s). rewrite rscale_scale.
  replace (rdist t s / 2 * / rdist t s) with (1 / 2) by (field; lra). clear. destruct s as (? & ? & ? & []), t as (? & ? & ? & []). cbn. repeat (apply f_equal2; [field|]). reflexivity.
Qed.
Lemma round_margin p (na : nat) d t k M r l : (3 <= na)%nat -> 0 < r -> 0 < l -> 0 <= t -> 0 <= M -> uround p <= d ->
  let rho := r + l in let c := 150 * (d * rho) + 10 * bpow radix2 k + 4 * (uround p * M) + t * (1 + 3 * rho) in
  16 * (rho * rho) * c * INR na <= r * r * l -> let D := r * r * l / INR na in
  0 < D /\ 16 * (rho * rho) * c <= D /\ 500 * uround p * (rho * rho * rho) <= D /\ 1024 * uround p <= 1.
Proof.
  intros Hna Hr Hl t0 M0 Hud rho c H D. pose proof (@u_pos p) as Hu. pose proof (bpow_gt_0 radix2 k) as b0.
  assert (N3 : 3 <= INR na) by (apply (le_INR 3) in Hna; cbn in Hna; lra).
  assert (rho0 : 0 < rho) by (unfold rho; lra). assert (rr : 0 < rho * rho) by (apply Rmult_lt_0_compat; assumption). assert (rrr : 0 < rho * rho * rho) by (apply Rmult_lt_0_compat; assumption).
  assert (V : 0 < r * r * l) by (repeat apply Rmult_lt_0_compat; assumption).
  assert (VR : r * r * l <= rho * rho * rho). { apply Rmult_le_compat; try (unfold rho; lra); [apply Rle_0_sqr|]. apply Rmult_le_compat; unfold rho; lra. }
  assert (ED : INR na * D = r * r * l) by (unfold D; field; lra).
  assert (LE : forall x, INR na * x <= r * r * l -> x <= D) by (intros x Hx; apply Rmult_le_reg_l with (INR na); lra).
  assert (c1 : 150 * (uround p * rho) <= c).
  { unfold c. assert (uround p * rho <= d * rho) by (apply Rmult_le_compat_r; lra). assert (0 <= uround p * M) by (apply Rmult_le_pos; lra). assert (0 <= t * (1 + 3 * rho)) by (apply Rmult_le_pos; lra). lra. }
  assert (H1 : 2400 * uround p * (rho * rho * rho) * INR na <= r * r * l).
  { eapply Rle_trans; [|exact H]. apply Rmult_le_compat_r; [lra|]. replace (2400 * uround p * (rho * rho * rho)) with (16 * (rho * rho) * (150 * (uround p * rho))) by ring. apply Rmult_le_compat_l; lra. }
  assert (ur : 0 < uround p * (rho * rho * rho)) by (apply Rmult_lt_0_compat; lra).
  assert (urN : 3 * (uround p * (rho * rho * rho)) <= INR na * (uround p * (rho * rho * rho))) by (apply Rmult_le_compat_r; lra).
  split; [unfold D; apply Rdiv_lt_0_compat; lra|]. split; [apply LE; lra|]. split; [apply LE; lra|].
  apply Rmult_le_reg_r with (rho * rho * rho); [exact rrr|]. lra.
Qed.

Lemma cone_ready :
  forall p e Hp He, (2 < p)%Z -> forall f g h pi,
  let S := IEEE p e Hp He f g h pi in
  forall (L : Linal S) W meq dbg self SZ (rot_align : hvec S -> hvec S -> hmat S) (k K : Z) (na : nat) (co : cone S) (A : vec (vec R 3) 3) (d t M : R),
    (3 <= na)%nat -> (6 * na < W)%nat ->
    trig_accurate d f g pi -> equal_within L t -> identity_within meq t -> (3 - e - p <= 2 * k)%Z ->
    let seg := co_segment co in
    let src := g_source seg : vec (binary_float p e) 3 in let tgt := g_target seg : vec (binary_float p e) 3 in
    let r := B2R (co_radius co : binary_float p e) in let l := rdist (vreal tgt) (vreal src) in
    in_reach tgt src -> (forall i, (i < 3)%nat -> Rabs (fval i src) <= M) -> M <= bpow radix2 (e - 4) ->
    is_finite (co_radius co : binary_float p e) = true -> 0 < r -> r + l <= bpow radix2 (e - 4) ->
    rotation_onto A (rdirection (rsub (vreal tgt) (vreal src))) ->
    rotation_within d A (rot_align (mk4 s0 s0 s1 s1) (to_hvec (segment_direction seg))) ->
    (dbg = true -> isZero L (leps L) (segment_length seg) = false /\ isEq L (leps L) (vlength (segment_direction seg)) s1 = true) ->
    let c := 150 * (d * (r + l)) + 10 * bpow radix2 k + 4 * (uround p * M) + t * (1 + 3 * (r + l)) in
    INR na * (2 * c + t + bpow radix2 k) <= r -> 2 * (2 * c + t + bpow radix2 k) <= l ->
    16 * ((r + l) * (r + l)) * c * INR na <= r * r * l -> scale_frame p e K (r + l) (r * r * l / INR na) ->
    exists m, mb_cone L W meq dbg self SZ rot_align na co = Ok (Some m) /\ length (m_facets m) = (2 * na)%nat /\
      ready L self m (rscale (1 / 2) (radd (vreal src) (vreal tgt))) (r + l) c (r * r * l / INR na) K (2 * na).
Proof.
  intros p e Hp He H2 f g h pi S L W meq dbg self SZ rot_align k K na co A d t M Hna HW Ht HL Hm Hk seg src tgt r l HR HsM HM Fr Hr Hre HA HX Hdbg c Hs1 Hs2 Hout Hfr.
  destruct (cone_setup p e Hp He H2 f g h pi L W meq rot_align k na co A d t M Hna HW Ht HL Hm Hk HR HsM HM Fr Hr Hre HA HX Hs1 Hs2) as (fp & Ep & Hn & Hs & Hv & Hc & _ & Hl).
  destruct (cone_built p e Hp He H2 f g h pi L W meq dbg self SZ rot_align k na co Hna HW Hdbg Hn Hs Hv) as (m & Em & (_ & _ & _ & _ & _ & V6) & pos & Hpos & Hw).
  exists m. split; [exact Em|]. split; [exact V6|].
  assert (M0 : 0 <= M) by (eapply Rle_trans; [apply Rabs_pos|apply (HsM 0%nat); lia]).
  destruct (round_margin p na d t k M r l Hna Hr Hl (ew_slack _ _ HL) M0 (ta_round _ _ _ _ Ht) Hout) as (D0 & D16 & D500 & U1).
  assert (Hps : forall v, In v (kvs na) -> pos v = fp v) by (apply map_eq_in; exact (eq_trans Hpos Ep)).
  rewrite <- (affine_mid A (vreal src) (vreal tgt) Hl HA). change (rdist (vreal tgt) (vreal src)) with l.
  apply (mk_ready f g h pi L self _ Hv (map (ktri na) (ktags na)) pos m (fun v => In v (kvs na)) (fun v => affine A (vreal src) (kpos na r l v)) _ (r + l) c (r * r * l / INR na) K).
  - rewrite map_length. rewrite ktags_length. lia.
  - exact Hw.
  - intros x y z Hin. destruct (corners_in _ _ (cone_corner na Hna) x y z Hin) as (A1 & A2 & A3). repeat split; apply kvs_all; assumption.
  - intros v Hin. exact (eq_ind _ (fun l => In (pos v) l) (in_map pos (kvs na) v Hin) _ Hpos).
  - intros v Hin. rewrite (Hps v Hin). exact (Hc v Hin).
  - intros v Hin. rewrite (rigid_shift A (vreal src) (proj1 HA)). apply kpos_dist; assumption.
  - intros x y z Hin. rewrite sixvol_affine, (rigid_det A (proj1 HA) (proj1 (proj2 HA))), Rmult_1_l. apply ktri_sixvol; assumption.
  - exact D0.
  - exact D16.
  - exact D500.
  - exact U1.
  - exact Hfr.
Qed.

Theorem C79_cone :
  forall p e Hp He, (2 < p)%Z -> forall f g h pi,
  let S := IEEE p e Hp He f g h pi in
  forall (L : Linal S) W meq dbg self SZ (rot_align : hvec S -> hvec S -> hmat S) (k K : Z) (na : nat) (co : cone S) (A : vec (vec R 3) 3) (d t M : R),
    (3 <= na)%nat -> (6 * na < W)%nat ->
    trig_accurate d f g pi -> equal_within L t -> identity_within meq t -> (3 - e - p <= 2 * k)%Z ->
    let seg := co_segment co in
    let src := g_source seg : vec (binary_float p e) 3 in let tgt := g_target seg : vec (binary_float p e) 3 in
    let r := B2R (co_radius co : binary_float p e) in let l := rdist (vreal tgt) (vreal src) in
    in_reach tgt src -> (forall i, (i < 3)%nat -> Rabs (fval i src) <= M) -> M <= bpow radix2 (e - 4) ->
    is_finite (co_radius co : binary_float p e) = true -> 0 < r -> r + l <= bpow radix2 (e - 4) ->
    rotation_onto A (rdirection (rsub (vreal tgt) (vreal src))) ->
    rotation_within d A (rot_align (mk4 s0 s0 s1 s1) (to_hvec (segment_direction seg))) ->
    (dbg = true -> isZero L (leps L) (segment_length seg) = false /\ isEq L (leps L) (vlength (segment_direction seg)) s1 = true) ->
    let c := 150 * (d * (r + l)) + 10 * bpow radix2 k + 4 * (uround p * M) + t * (1 + 3 * (r + l)) in
    INR na * (2 * c + t + bpow radix2 k) <= r -> 2 * (2 * c + t + bpow radix2 k) <= l ->
    16 * ((r + l) * (r + l)) * c * INR na <= r * r * l -> scale_frame p e K (r + l) (r * r * l / INR na) ->
    exists m, mb_cone L W meq dbg self SZ rot_align na co = Ok (Some m) /\ length (m_facets m) = (2 * na)%nat /\
      float_outward self m (rscale (1 / 2) (radd (vreal src) (vreal tgt))).
Proof.
  intros p e Hp He H2 f g h pi S L W meq dbg self SZ rot_align k K na co A d t M Hna HW Ht HL Hm Hk seg src tgt r l HR HsM HM Fr Hr Hre HA HX Hdbg c Hs1 Hs2 Hout Hfr.
  destruct (cone_ready p e Hp He H2 f g h pi L W meq dbg self SZ rot_align k K na co A d t M Hna HW Ht HL Hm Hk HR HsM HM Fr Hr Hre HA HX Hdbg Hs1 Hs2 Hout Hfr) as (m & Em & Hl & Hrd).
  exists m. split; [exact Em|]. split; [exact Hl|]. exact (ready_outward f g h pi L self m _ _ _ _ _ _ Hrd).
Qed.
Print Assumptions C79_cone.

(** The cylinder. *)
Lemma cylinder_ready :
  forall p e Hp He, (2 < p)%Z -> forall f g h pi,
  let S := IEEE p e Hp He f g h pi in
  forall (L : Linal S) W meq dbg self SZ (rot_align : hvec S -> hvec S -> hmat S) (k K : Z) (na : nat) (cy : cylinder S) (A : vec (vec R 3) 3) (d t M : R),
    (3 <= na)%nat -> (12 * na < W)%nat ->
    trig_accurate d f g pi -> equal_within L t -> identity_within meq t -> (3 - e - p <= 2 * k)%Z ->
    let seg := cy_segment cy in
    let src := g_source seg : vec (binary_float p e) 3 in let tgt := g_target seg : vec (binary_float p e) 3 in
    let r := B2R (cy_radius cy : binary_float p e) in let l := rdist (vreal tgt) (vreal src) in
    in_reach tgt src -> (forall i, (i < 3)%nat -> Rabs (fval i src) <= M) -> M <= bpow radix2 (e - 4) ->
    is_finite (cy_radius cy : binary_float p e) = true -> 0 < r -> r + l <= bpow radix2 (e - 4) ->
    rotation_onto A (rdirection (rsub (vreal tgt) (vreal src))) ->
    rotation_within d A (rot_align (mk4 s0 s0 s1 s1) (to_hvec (segment_direction seg))) ->
    let c := 150 * (d * (r + l)) + 10 * bpow radix2 k + 4 * (uround p * M) + t * (1 + 3 * (r + l)) in
    INR na * (2 * c + t + bpow radix2 k) <= r -> 2 * (2 * c + t + bpow radix2 k) <= l ->
    16 * ((r + l) * (r + l)) * c * INR na <= r * r * l -> scale_frame p e K (r + l) (r * r * l / INR na) ->
    exists m, mb_cylinder L W meq dbg self SZ rot_align na cy = Ok (Some m) /\ length (m_facets m) = (4 * na)%nat /\
      ready L self m (rscale (1 / 2) (radd (vreal src) (vreal tgt))) (r + l) c (r * r * l / INR na) K (4 * na).
Proof.
  intros p e Hp He H2 f g h pi S L W meq dbg self SZ rot_align k K na cy A d t M Hna HW Ht HL Hm Hk seg src tgt r l HR HsM HM Fr Hr Hre HA HX c Hs1 Hs2 Hout Hfr.
  destruct (cylinder_setup p e Hp He H2 f g h pi L W meq rot_align k na cy A d t M Hna HW Ht HL Hm Hk HR HsM HM Fr Hr Hre HA HX Hs1 Hs2) as (fp & Ep & Hn & Hs & Hv & Hc & _ & Hl).
  destruct (cylinder_built p e Hp He H2 f g h pi L W meq dbg self SZ rot_align k na cy Hna HW Hn Hs Hv) as (m & Em & (_ & _ & _ & _ & _ & V6) & pos & Hpos & Hw).
  exists m. split; [exact Em|]. split; [exact V6|].
  assert (M0 : 0 <= M) by (eapply Rle_trans; [apply Rabs_pos|apply (HsM 0%nat); lia]).
  destruct (round_margin p na d t k M r l Hna Hr Hl (ew_slack _ _ HL) M0 (ta_round _ _ _ _ Ht) Hout) as (D0 & D16 & D500 & U1).
  assert (Hps : forall v, In v (yvs na) -> pos v = fp v) by (apply map_eq_in; exact (eq_trans Hpos Ep)).
  rewrite <- (affine_mid A (vreal src) (vreal tgt) Hl HA). change (rdist (vreal tgt) (vreal src)) with l.
  apply (mk_ready f g h pi L self _ Hv (map (ytri na) (ytags na)) pos m (fun v => In v (yvs na)) (fun v => affine A (vreal src) (ypos na r l v)) _ (r + l) c (r * r * l / INR na) K).
  - rewrite map_length. rewrite ytags_length. lia.
  - exact Hw.
  - intros x y z Hin. destruct (corners_in _ _ (cyl_corner na Hna) x y z Hin) as (A1 & A2 & A3). repeat split; apply yvs_all; assumption.
  - intros v Hin. exact (eq_ind _ (fun l => In (pos v) l) (in_map pos (yvs na) v Hin) _ Hpos).
  - intros v Hin. rewrite (Hps v Hin). exact (Hc v Hin).
  - intros v Hin. rewrite (rigid_shift A (vreal src) (proj1 HA)). apply ypos_dist; assumption.
  - intros x y z Hin. rewrite sixvol_affine, (rigid_det A (proj1 HA) (proj1 (proj2 HA))), Rmult_1_l. apply ytri_sixvol; assumption.
  - exact D0.
  - exact D16.
  - exact D500.
  - exact U1.
  - exact Hfr.
Qed.

Theorem C79_cylinder :
  forall p e Hp He, (2 < p)%Z -> forall f g h pi,
  let S := IEEE p e Hp He f g h pi in
  forall (L : Linal S) W meq dbg self SZ (rot_align : hvec S -> hvec S -> hmat S) (k K : Z) (na : nat) (cy : cylinder S) (A : vec (vec R 3) 3) (d t M : R),
    (3 <= na)%nat -> (12 * na < W)%nat ->
    trig_accurate d f g pi -> equal_within L t -> identity_within meq t -> (3 - e - p <= 2 * k)%Z ->
    let seg := cy_segment cy in
    let src := g_source seg : vec (binary_float p e) 3 in let tgt := g_target seg : vec (binary_float p e) 3 in
    let r := B2R (cy_radius cy : binary_float p e) in let l := rdist (vreal tgt) (vreal src) in
    in_reach tgt src -> (forall i, (i < 3)%nat -> Rabs (fval i src) <= M) -> M <= bpow radix2 (e - 4) ->
    is_finite (cy_radius cy : binary_float p e) = true -> 0 < r -> r + l <= bpow radix2 (e - 4) ->
    rotation_onto A (rdirection (rsub (vreal tgt) (vreal src))) ->
    rotation_within d A (rot_align (mk4 s0 s0 s1 s1) (to_hvec (segment_direction seg))) ->
    let c := 150 * (d * (r + l)) + 10 * bpow radix2 k + 4 * (uround p * M) + t * (1 + 3 * (r + l)) in
    INR na * (2 * c + t + bpow radix2 k) <= r -> 2 * (2 * c + t + bpow radix2 k) <= l ->
    16 * ((r + l) * (r + l)) * c * INR na <= r * r * l -> scale_frame p e K (r + l) (r * r * l / INR na) ->
    exists m, mb_cylinder L W meq dbg self SZ rot_align na cy = Ok (Some m) /\ length (m_facets m) = (4 * na)%nat /\
      float_outward self m (rscale (1 / 2) (radd (vreal src) (vreal tgt))).
Proof.
  intros p e Hp He H2 f g h pi S L W meq dbg self SZ rot_align k K na cy A d t M Hna HW Ht HL Hm Hk seg src tgt r l HR HsM HM Fr Hr Hre HA HX c Hs1 Hs2 Hout Hfr.
  destruct (cylinder_ready p e Hp He H2 f g h pi L W meq dbg self SZ rot_align k K na cy A d t M Hna HW Ht HL Hm Hk HR HsM HM Fr Hr Hre HA HX Hs1 Hs2 Hout Hfr) as (m & Em & Hl & Hrd).
  exists m. split; [exact Em|]. split; [exact Hl|]. exact (ready_outward f g h pi L self m _ _ _ _ _ _ Hrd).
Qed.
Print Assumptions C79_cylinder.

(** The hypotheses are met: the sphere of C68 (16 times 32 steps) meets those of
    C79_sphere_double, and the cylinder (and cone) of C70 with 32 steps meets the two
    that are not already in C70_example. *)
Example C79_example :
  (INR 16 * INR 16 * INR 32 <= bpow radix2 30 /\ let r := B2R (s_radius csphere : b64) in bpow radix2 (-180) <= r <= bpow radix2 180) /\
  let r := B2R (b64_ofZ 2) in let l := rdist (vreal (g_target caxis : vec b64 3)) (vreal (g_source caxis : vec b64 3)) in
  let c := 150 * (bpow radix2 (-52) * (r + l)) + 10 * bpow radix2 (-340) + 4 * (uround 53 * 4) + 0 * (1 + 3 * (r + l)) in
  16 * ((r + l) * (r + l)) * c * INR 32 <= r * r * l /\ scale_frame 53 1024 20 (r + l) (r * r * l / INR 32).
Proof.
  destruct (b64_small 1 ltac:(lia)) as (F1 & E1). destruct (b64_small 2 ltac:(lia)) as (F2 & E2).
  destruct (b64_small 3 ltac:(lia)) as (F3 & E3). destruct (b64_small 7 ltac:(lia)) as (F7 & E7).
  split.
  { split; [cbn; lra|]. intros r. assert (Er : r = 2) by exact E2. rewrite Er. split; change 2 with (bpow radix2 1); apply bpow_le; lia. }
  intros r l. assert (Er : r = 2) by exact E2.
  assert (Vs : vreal (g_source caxis : vec b64 3) = (1, (2, (3, tt)))).
  { transitivity (B2R (b64_ofZ 1), (B2R (b64_ofZ 2), (B2R (b64_ofZ 3), tt))); [reflexivity|]. rewrite E1, E2, E3. reflexivity. }
  assert (Vt : vreal (g_target caxis : vec b64 3) = (1, (2, (7, tt)))).
  { transitivity (B2R (b64_ofZ 1), (B2R (b64_ofZ 2), (B2R (b64_ofZ 7), tt))); [reflexivity|]. rewrite E1, E2, E7. reflexivity. }
  assert (El : l = 4).
  { unfold l, rdist, rnorm. rewrite Vs, Vt. cbn. replace ((1 - 1) * (1 - 1) + ((2 - 2) * (2 - 2) + ((7 - 3) * (7 - 3) + 0))) with (4 * 4) by ring.
    apply sqrt_square. lra. }
  rewrite Er, El. assert (E32 : INR 32 = 32) by (cbn; ring). rewrite E32. intros c.
  assert (d9 : bpow radix2 (-52) <= bpow radix2 (-30)) by (apply bpow_le; lia). assert (d20 : 1000000000 * bpow radix2 (-30) <= 1) by (cbn; lra).
  assert (u9 : uround 53 <= bpow radix2 (-30)) by (apply bpow_le; lia).
  assert (k9 : bpow radix2 (-340) <= bpow radix2 (-30)) by (apply bpow_le; lia).
  split; [unfold c; lra|]. split; [lia|]. split; [lia|]. split; cbn; lra.
Qed.
