(** * Proofs about distances, continued *)

From Coq Require Import Reals Lra Psatz List Bool Arith Lia.
From Verif Require Import Scalar Linal Result SpecReal VecR VecLemmas ModelShapes ModelDistance ProofDistance.
Local Open Scope R_scope.

Lemma Rmax_min_R (x : R) M : @std_min (RS M) (@std_max (RS M) x 0) 1 = Rmin (Rmax x 0) 1.
Proof.
  unfold std_min, std_max, Rmin, Rmax; cbn. unfold Rltb.
  repeat (destruct (Rlt_dec _ _) || destruct (Rle_dec _ _)); lra.
Qed.

Definition clamp01 (x : R) : R := Rmin (Rmax x 0) 1.
Lemma clamp01_range x : 0 <= clamp01 x <= 1.
Proof. unfold clamp01, Rmin, Rmax. repeat destruct (Rle_dec _ _); lra. Qed.
Lemma clamp01_cases x : (x <= 0 /\ clamp01 x = 0) \/ (0 <= x <= 1 /\ clamp01 x = x) \/ (1 <= x /\ clamp01 x = 1).
Proof. unfold clamp01, Rmin, Rmax. repeat destruct (Rle_dec _ _); lra. Qed.

(** along a line, distances from [v] are governed by the distance to the foot *)
Lemma foot_pythagoras {n} (o d v : vec R n) x u :
  rdot d (rsub (along o d x) v) = 0 ->
  rdist v (along o d u) * rdist v (along o d u) =
  rdist v (along o d x) * rdist v (along o d x) + (u - x) * (u - x) * rdot d d.
Proof.
  intros H. rewrite !rdist_sq. unfold along in *.
  assert (E : rdot (rsub v (radd o (rscale u d))) (rsub v (radd o (rscale u d)))
    = rdot (rsub v (radd o (rscale x d))) (rsub v (radd o (rscale x d)))
      + (u - x) * (u - x) * rdot d d + 2 * (u - x) * rdot d (rsub (radd o (rscale x d)) v)) by vring.
  rewrite E, H. ring.
Qed.

Lemma closer_iff {n} (o d v : vec R n) x u w : d <> rzero ->
  rdot d (rsub (along o d x) v) = 0 ->
  (rdist v (along o d u) <= rdist v (along o d w) <-> (u - x) * (u - x) <= (w - x) * (w - x)).
Proof.
  intros Hd H. pose proof (nonzero_dot d Hd).
  pose proof (foot_pythagoras o d v x u H) as Eu. pose proof (foot_pythagoras o d v x w H) as Ew.
  pose proof (rdist_nonneg v (along o d u)). pose proof (rdist_nonneg v (along o d w)).
  split; intros Hle.
  - apply Rmult_le_reg_r with (rdot d d); [assumption|]. nra.
  - apply sq_le; [assumption|]. rewrite Eu, Ew.
    apply Rplus_le_compat_l, Rmult_le_compat_r; lra.
Qed.

Lemma segment_foot {n} (a b v : vec R n) : rsub b a <> rzero ->
  is_set_distance (fun p => p = v) (on_segment a b)
    (rdist v (along a (rsub b a) (clamp01 (rdot (rsub v a) (rsub b a) / rdot (rsub b a) (rsub b a))))).
Proof.
  intros Hd. set (d := rsub b a) in *. set (x := rdot (rsub v a) d / rdot d d).
  pose proof (foot_param a d v Hd) as Hf. fold x in Hf.
  split.
  - intros p q -> (u & Hu & ->). fold d. apply (closer_iff a d v x); auto.
    destruct (clamp01_cases x) as [[H ->]|[[H ->]|[H ->]]]; clearbody x;
      [nra | replace ((x - x) * (x - x)) with 0 by ring; apply Rle_0_sqr | nra].
  - exists v. eexists. split; [reflexivity|]. split; [|reflexivity].
    exists (clamp01 x). split; [apply clamp01_range|reflexivity].
Qed.

Section Dist2.
  Context {M : R} {L : Linal (RS M)} (HL : LinalR L).
  Let He : 0 <= leps L := lr_eps L HL.

  (** ** segment - point *)
  Lemma dist_segment_point_R n (g : segment (RS M) n) (v : vec R n) :
    dist_segment_point g v =
    rdist v (along (g_source g) (rsub (g_target g) (g_source g))
               (clamp01 (rdot (rsub v (g_source g)) (rsub (g_target g) (g_source g)) / rnorm (rsub (g_target g) (g_source g))))).
  Proof.
    unfold dist_segment_point. toR. rewrite rdist_sym. unfold rdist, along, clamp01.
    change (@s0 (RS M)) with 0. change (@s1 (RS M)) with 1. now rewrite Rmax_min_R.
  Qed.

  Lemma dist_segment_point_upper n (g : segment (RS M) n) (v : vec R n) :
    exists p, on_segment (g_source g) (g_target g) p /\ dist_segment_point g v = rdist v p.
  Proof.
    rewrite dist_segment_point_R. eexists. split; [|reflexivity].
    eexists. split; [apply clamp01_range|reflexivity].
  Qed.

  Lemma dist_segment_point_iff n (g : segment (RS M) n) (v : vec R n) :
    let d := rsub (g_target g) (g_source g) in
    d <> rzero ->
    (is_set_distance (fun p => p = v) (on_segment (g_source g) (g_target g)) (dist_segment_point g v) <->
     clamp01 (rdot (rsub v (g_source g)) d / rnorm d) = clamp01 (rdot (rsub v (g_source g)) d / rdot d d)).
  Proof.
    intros d Hd. rewrite dist_segment_point_R. fold d.
    pose proof (segment_foot (g_source g) (g_target g) v Hd) as Hseg. fold d in Hseg.
    split.
    - intros [Hmin _].
      set (x := rdot (rsub v (g_source g)) d / rdot d d) in *.
      set (y := rdot (rsub v (g_source g)) d / rnorm d) in *.
      pose proof (foot_param (g_source g) d v Hd) as Hf. fold x in Hf.
      assert (H : rdist v (along (g_source g) d (clamp01 y)) <= rdist v (along (g_source g) d (clamp01 x))).
      { apply Hmin; [reflexivity|]. eexists; split; [apply clamp01_range|reflexivity]. }
      apply (closer_iff (g_source g) d v x) in H; auto.
      pose proof (clamp01_range y).
      destruct (clamp01_cases x) as [[Hx E]|[[Hx E]|[Hx E]]]; rewrite E in *; nra.
    - intros ->. exact Hseg.
  Qed.

  Lemma dist_segment_point_unit n (g : segment (RS M) n) (v : vec R n) :
    rnorm (rsub (g_target g) (g_source g)) = 1 ->
    is_set_distance (fun p => p = v) (on_segment (g_source g) (g_target g)) (dist_segment_point g v).
  Proof.
    intros H1. apply dist_segment_point_iff.
    - intros E. rewrite E in H1. rewrite rnorm_rzero in H1. lra.
    - rewrite <- rnorm_sq, H1. now rewrite Rmult_1_l.
  Qed.

  (** outside the slab of the segment the result is right for every length *)
  Lemma dist_segment_point_outside n (g : segment (RS M) n) (v : vec R n) :
    let d := rsub (g_target g) (g_source g) in
    d <> rzero ->
    rdot (rsub v (g_source g)) d <= 0 \/ (rnorm d <= rdot (rsub v (g_source g)) d /\ rdot d d <= rdot (rsub v (g_source g)) d) ->
    is_set_distance (fun p => p = v) (on_segment (g_source g) (g_target g)) (dist_segment_point g v).
  Proof.
    intros d Hd H. apply dist_segment_point_iff; [exact Hd|]. fold d.
    pose proof (nonzero_dot d Hd) as Hdd. pose proof (nonzero_norm d Hd) as Hdn.
    set (z := rdot (rsub v (g_source g)) d) in *. clearbody z.
    assert (Hc : forall q, 0 < q -> (z <= 0 -> clamp01 (z / q) = 0) /\ (q <= z -> clamp01 (z / q) = 1)).
    { intros q Hq. assert (E : z = (z / q) * q) by (field; lra).
      split; intros Hz; destruct (clamp01_cases (z / q)) as [[h ->]|[[h ->]|[h ->]]]; try reflexivity; try nra. }
    destruct H as [H|[Ha Hb]].
    - now rewrite (proj1 (Hc _ Hdd) H), (proj1 (Hc _ Hdn) H).
    - now rewrite (proj2 (Hc _ Hdd) Hb), (proj2 (Hc _ Hdn) Ha).
  Qed.

  (** ** line - line *)
  Lemma cross_dot_l (u v : vec R 3) : rdot u (@cross (RS M) u v) = 0.
  Proof. destruct u as [a [b [c []]]], v as [x [y [z []]]]. cbn. ring. Qed.
  Lemma cross_dot_r (u v : vec R 3) : rdot v (@cross (RS M) u v) = 0.
  Proof. destruct u as [a [b [c []]]], v as [x [y [z []]]]. cbn. ring. Qed.
  Lemma cross_gram (u v : vec R 3) : rdot (@cross (RS M) u v) (@cross (RS M) u v) = gram u v.
  Proof. destruct u as [a [b [c []]]], v as [x [y [z []]]]. unfold gram. cbn. ring. Qed.
  Lemma triple_identity (w u v : vec R 3) :
    rdot w w * gram u v = rdot w (@cross (RS M) u v) * rdot w (@cross (RS M) u v) +
      (rdot w v * rdot w v * rdot u u - 2 * rdot w v * rdot w u * rdot u v + rdot w u * rdot w u * rdot v v).
  Proof.
    destruct u as [a [b [c []]]], v as [x [y [z []]]], w as [p [q [r []]]]. unfold gram. cbn. ring.
  Qed.

  Lemma line_line_generic (lo ld ro rd : vec R 3) : gram ld rd <> 0 ->
    is_set_distance (on_line lo ld) (on_line ro rd)
      (Rabs (rdot (rsub lo ro) (@cross (RS M) ld rd) / rnorm (@cross (RS M) ld rd))).
  Proof.
    intros Hg.
    assert (Hraw : @closest_params (RS M) (raw_linal (RS M) 0) 0 lo ld ro rd <> None).
    { rewrite closest_params_gram. cbn. now rewrite (proj2 (Reqb_false _ _) Hg). }
    assert (HR : LinalR (raw_linal (RS M) 0)) by (apply raw_linal_R; lra).
    destruct (closest_params (raw_linal (RS M) 0) 0 lo ld ro rd) as [[t s]|] eqn:E; [|contradiction].
    pose proof (closest_params_min HR 0 lo ld ro rd t s (Rle_refl 0) E) as Hmin.
    destruct (closest_params_some HR 0 lo ld ro rd t s (Rle_refl 0) E) as (_ & H1 & H2).
    set (c := @cross (RS M) ld rd : vec R 3).
    set (w := rsub (along lo ld t) (along ro rd s)) in *.
    assert (Hwc : rdot (rsub lo ro) c = rdot w c).
    { unfold w, along. vdot. unfold c. rewrite cross_dot_l, cross_dot_r. ring. }
    assert (Hw : Rabs (rdot (rsub lo ro) c / rnorm c) = rnorm w).
    { rewrite Hwc. pose proof (gram_nonneg ld rd) as Hgn.
      assert (Hcc : rdot c c = gram ld rd) by apply cross_gram.
      assert (Hcn : 0 < rnorm c) by (apply sqrt_lt_R0; rewrite Hcc; lra).
      apply sq_eq; [apply Rabs_pos|apply rnorm_nonneg|].
      rewrite <- Rabs_mult, Rabs_pos_eq by apply Rle_0_sqr.
      rewrite rnorm_sq. pose proof (triple_identity w ld rd) as T. fold c in T.
      rewrite (rdot_comm w ld), (rdot_comm w rd), H1, H2 in T.
      apply Rmult_eq_reg_r with (gram ld rd); [|exact Hg]. rewrite T.
      rewrite <- Hcc, <- rnorm_sq. field. lra. }
    rewrite Hw. split.
    - intros a b (u & ->) (v & ->). apply Hmin.
    - exists (along lo ld t), (along ro rd s). split; [eexists; reflexivity|]. split; [eexists; reflexivity|reflexivity].
  Qed.

  Lemma line_line_parallel (lo ld ro rd : vec R 3) k :
    rd <> rzero -> ld = rscale k rd ->
    is_set_distance (on_line lo ld) (on_line ro rd) (dist_point_line (S := RS M) lo (mkLine ro rd)).
  Proof.
    intros Hrd ->. destruct (dist_point_line_spec 3 lo (mkLine (S := RS M) ro rd) Hrd) as [Hmin (a & b & -> & (u & ->) & E)].
    cbn [l_origin l_dir] in *. split.
    - intros p q (x & ->) (y & ->). eapply Rle_trans; [apply (Hmin lo (along ro rd (y - x * k)) eq_refl)|].
      + eexists; reflexivity.
      + apply Req_le. unfold rdist, rnorm. apply (f_equal sqrt). unfold along. vring.
    - exists lo, (along ro rd u). split; [exists 0; unfold along; now rewrite rscale_0, radd_zero_r|].
      split; [eexists; reflexivity|exact E].
  Qed.

  Lemma dist_line_line_spec dbg (a b : line (RS M) 3) :
    rnorm (l_dir a) = 1 -> rnorm (l_dir b) = 1 ->
    gram (l_dir a) (l_dir b) = 0 \/ leps L * leps L < gram (l_dir a) (l_dir b) ->
    exists r, dist_line_line L dbg a b = Ok r /\
      is_set_distance (on_line (l_origin a) (l_dir a)) (on_line (l_origin b) (l_dir b)) (Rabs r).
  Proof.
    intros Ha Hb Hg. unfold dist_line_line. toR. rewrite Ha, Hb.
    rewrite !geo_assert_true by (apply (lr_eq_0 L HL); exact He). cbn [bind].
    assert (Hda : l_dir a <> rzero) by (intros E; rewrite E, rnorm_rzero in Ha; lra).
    assert (Hdb : l_dir b <> rzero) by (intros E; rewrite E, rnorm_rzero in Hb; lra).
    pose proof (gram_nonneg (l_dir a) (l_dir b)) as Hgn.
    assert (Hcl : rnorm (@cross (RS M) (l_dir a) (l_dir b)) = sqrt (gram (l_dir a) (l_dir b))).
    { unfold rnorm. now rewrite cross_gram. }
    destruct (isZero L (leps L) (rnorm (cross (l_dir a) (l_dir b)))) eqn:E.
    - apply (zero_t HL) in E; [|exact He]. eexists. split; [reflexivity|].
      assert (Hg0 : gram (l_dir a) (l_dir b) = 0).
      { destruct Hg as [Hg|Hg]; [exact Hg|]. rewrite Hcl in E.
        assert (sqrt (gram (l_dir a) (l_dir b)) * sqrt (gram (l_dir a) (l_dir b)) = gram (l_dir a) (l_dir b)) by (apply sqrt_sqrt; exact Hgn).
        pose proof (sqrt_pos (gram (l_dir a) (l_dir b))). nra. }
      assert (Hg0' : gram (l_dir b) (l_dir a) = 0).
      { unfold gram in *. rewrite (rdot_comm (l_dir b) (l_dir a)). lra. }
      destruct (gram_zero_parallel _ _ Hdb Hg0') as [k Hk].
      destruct b as [bo bd]. cbn [l_origin l_dir] in *.
      rewrite Rabs_pos_eq.
      + apply (line_line_parallel _ _ _ _ k Hdb Hk).
      + unfold dist_point_line. toR. apply rnorm_nonneg.
    - apply (zero_f HL) in E; [|exact He]. eexists. split; [reflexivity|].
      apply line_line_generic. intros Hg0. apply E. rewrite Hcl, Hg0. apply sqrt_0.
  Qed.

  (** ** segment - ray *)
  Lemma calc_segment_point_on (g : segment (RS M) 3) (t : R) :
    on_segment (g_source g) (g_target g) (calc_segment_point g t).
  Proof.
    unfold calc_segment_point, on_segment. cbn [sltb RS s0 s1].
    destruct (Rltb t 0) eqn:E1; [|destruct (Rltb 1 t) eqn:E2].
    - exists 0. split; [lra|]. unfold along. now rewrite rscale_0, radd_zero_r.
    - exists 1. split; [lra|]. unfold along. rewrite rscale_1, radd_rsub. reflexivity.
    - apply Rltb_false in E1, E2. exists t. split; [lra|reflexivity].
  Qed.
  Lemma calc_ray_point_on (r : ray (RS M) 3) (t : R) :
    on_ray (r_origin r) (r_dir r) (calc_ray_point r t).
  Proof.
    unfold calc_ray_point, on_ray. cbn [sltb RS s0 s1].
    destruct (Rltb t 0) eqn:E1.
    - exists 0. split; [lra|]. unfold along. now rewrite rscale_0, radd_zero_r.
    - apply Rltb_false in E1. exists t. split; [lra|reflexivity].
  Qed.

  Lemma dist_segment_ray_upper (g : segment (RS M) 3) (r : ray (RS M) 3) :
    let sd := rsub (g_target g) (g_source g) in
    leps L < gram sd (r_dir r) ->
    exists p q, on_segment (g_source g) (g_target g) p /\ on_ray (r_origin r) (r_dir r) q /\
      dist_segment_ray L g r = Ok (rdist p q).
  Proof.
    intros sd Hg. unfold dist_segment_ray. change (vsub (g_target g) (g_source g)) with sd.
    destruct (closest_params L (leps L) (g_source g) sd (r_origin r) (r_dir r)) as [[t s]|] eqn:E.
    - exists (calc_segment_point g t), (calc_ray_point r s).
      split; [apply calc_segment_point_on|]. split; [apply calc_ray_point_on|]. now toR.
    - apply (closest_params_none HL) in E; [|exact He]. lra.
  Qed.

  (** the closest points of the two carrier lines lie on the segment and the ray *)
  Lemma dist_segment_ray_inside (g : segment (RS M) 3) (r : ray (RS M) 3) t s :
    let sd := rsub (g_target g) (g_source g) in
    leps L < gram sd (r_dir r) ->
    rdot sd (rsub (along (g_source g) sd t) (along (r_origin r) (r_dir r) s)) = 0 ->
    rdot (r_dir r) (rsub (along (g_source g) sd t) (along (r_origin r) (r_dir r) s)) = 0 ->
    0 <= t <= 1 -> 0 <= s ->
    exists m, dist_segment_ray L g r = Ok m /\
      is_set_distance (on_segment (g_source g) (g_target g)) (on_ray (r_origin r) (r_dir r)) m.
  Proof.
    intros sd Hg H1 H2 Ht Hs. unfold dist_segment_ray. change (vsub (g_target g) (g_source g)) with sd.
    destruct (closest_params L (leps L) (g_source g) sd (r_origin r) (r_dir r)) as [[t' s']|] eqn:E.
    - assert (Ets : t = t' /\ s = s').
      { apply (closest_params_unique HL _ _ _ _ _ _ _ He E).
        apply rdist_le_of_sq. rewrite (closest_ortho _ _ _ _ t s t' s' H1 H2).
        pose proof (gram_nonneg sd (r_dir r)) as Hn.
        assert (Hg0 : gram sd (r_dir r) <> 0) by lra.
        pose proof (gram_pos_l sd (r_dir r) Hg0) as Ha.
        pose proof (gram_quad sd (r_dir r) (t' - t) (s' - s)) as Hq.
        set (q := (t' - t) * (t' - t) * rdot sd sd - 2 * (t' - t) * (s' - s) * rdot sd (r_dir r) + (s' - s) * (s' - s) * rdot (r_dir r) (r_dir r)) in *.
        assert (0 <= q); [|lra]. apply Rmult_le_reg_l with (rdot sd sd); [assumption|]. rewrite Hq.
        pose proof (sq_mul_nonneg (s' - s) _ Hn).
        pose proof (Rle_0_sqr ((t' - t) * rdot sd sd - (s' - s) * rdot sd (r_dir r))) as Hs0. unfold Rsqr in Hs0. lra. }
      destruct Ets as [<- <-].
      eexists. split; [reflexivity|]. toR.
      assert (Ep : calc_segment_point g t = along (g_source g) sd t).
      { unfold calc_segment_point. cbn [sltb RS s0 s1]. rewrite (proj2 (Rltb_false t 0)), (proj2 (Rltb_false 1 t)) by lra. reflexivity. }
      assert (Eq : calc_ray_point r s = along (r_origin r) (r_dir r) s).
      { unfold calc_ray_point. cbn [sltb RS s0 s1]. rewrite (proj2 (Rltb_false s 0)) by lra. reflexivity. }
      rewrite Ep, Eq. split.
      + intros a b (u & _ & ->) (v & _ & ->). apply (closest_params_min HL _ _ _ _ _ _ _ He E).
      + eexists; eexists. split; [exists t; split; [exact Ht|reflexivity]|].
        split; [exists s; split; [exact Hs|reflexivity]|reflexivity].
    - apply (closest_params_none HL) in E; [|exact He]. lra.
  Qed.

  (** parallel to a unit-length segment, with exact comparisons *)
  Lemma dist_segment_ray_parallel (g : segment (RS M) 3) (r : ray (RS M) 3) :
    let sd := rsub (g_target g) (g_source g) in
    leps L = 0 -> rnorm sd = 1 -> r_dir r <> rzero -> gram sd (r_dir r) = 0 ->
    exists m, dist_segment_ray L g r = Ok m /\
      is_set_distance (on_segment (g_source g) (g_target g)) (on_ray (r_origin r) (r_dir r)) m.
  Proof.
    intros sd He0 Hn Hrd Hg. unfold dist_segment_ray. change (vsub (g_target g) (g_source g)) with sd.
    rewrite (closest_params_parallel HL) by (exact He || exact Hg).
    assert (Hsd : sd <> rzero) by (intros E; rewrite E, rnorm_rzero in Hn; lra).
    assert (Hss : rdot sd sd = 1) by (rewrite <- rnorm_sq, Hn; ring).
    destruct (gram_zero_parallel _ _ Hsd Hg) as [k Hk].
    assert (Hk0 : k <> 0) by (intros ->; rewrite rscale_0 in Hk; contradiction).
    set (x := rdot (rsub (r_origin r) (g_source g)) sd).
    set (w := rsub (rsub (r_origin r) (g_source g)) (rscale x sd)).
    assert (Hw : rdot sd w = 0).
    { unfold w, x. vdot. rewrite Hss. rewrite (rdot_comm sd (r_origin r)), (rdot_comm sd (g_source g)). ring. }
    (* all distances *)
    assert (Hd : forall u v, rdist (along (g_source g) sd u) (along (r_origin r) (r_dir r) v) * rdist (along (g_source g) sd u) (along (r_origin r) (r_dir r) v)
       = rnorm w * rnorm w + (x + v * k - u) * (x + v * k - u)).
    { intros u v. rewrite rdist_sq, rnorm_sq.
      replace (rsub (along (g_source g) sd u) (along (r_origin r) (r_dir r) v)) with (rscale (-1) (radd w (rscale (x + v * k - u) sd))).
      2:{ rewrite Hk. unfold w, along. apply eq_by_dot. vdot. ring. }
      vdot. rewrite Hss, (rdot_comm w sd), Hw. ring. }
    assert (Hline : dist_point_line (r_origin r) (line_make (g_source g) sd) = rnorm w).
    { unfold dist_point_line, line_make. cbn [l_origin l_dir]. toR. rewrite Hn, Rinv_1, rscale_1, Hss.
      unfold rnorm. apply (f_equal sqrt). unfold w, x. vdot. dcomm. rewrite Hss. field. }
    assert (Hdiff : rnorm (rsub (r_origin r) (g_source g)) = sqrt (rnorm w * rnorm w + x * x)).
    { unfold rnorm at 1. apply (f_equal sqrt). rewrite rnorm_sq. unfold w. vdot. rewrite Hss. fold x.
      unfold x. vdot. dcomm. ring. }
    assert (Htgt : rnorm (rsub (r_origin r) (g_target g)) = sqrt (rnorm w * rnorm w + (x - 1) * (x - 1))).
    { unfold rnorm at 1. apply (f_equal sqrt). rewrite rnorm_sq.
      replace (rsub (r_origin r) (g_target g)) with (radd w (rscale (x - 1) sd)).
      2:{ apply eq_by_dot. unfold w, sd. vdot. ring. }
      vdot. rewrite Hss, (rdot_comm w sd), Hw. ring. }
    assert (Hrdot : rdot (r_dir r) sd = k) by (rewrite Hk; vdot; rewrite Hss; ring).
    (* candidates *)
    assert (Hcand : forall m u v, 0 <= m -> 0 <= u <= 1 -> 0 <= v ->
       m * m = rnorm w * rnorm w + (x + v * k - u) * (x + v * k - u) ->
       (forall u' v', 0 <= u' <= 1 -> 0 <= v' -> (x + v * k - u) * (x + v * k - u) <= (x + v' * k - u') * (x + v' * k - u')) ->
       is_set_distance (on_segment (g_source g) (g_target g)) (on_ray (r_origin r) (r_dir r)) m).
    { intros m u v Hm Hu Hv Em Hmin. split.
      - intros a b (u' & Hu' & ->) (v' & Hv' & ->). fold sd.
        apply sq_le; [apply rdist_nonneg|]. rewrite Hd, Em. specialize (Hmin u' v' Hu' Hv'). lra.
      - exists (along (g_source g) sd u), (along (r_origin r) (r_dir r) v).
        split; [exists u; auto|]. split; [exists v; auto|].
        apply sq_eq; [apply rdist_nonneg|exact Hm|]. now rewrite Hd, Em. }
    toR. rewrite Hline, Hn. cbn [sdiv RS]. fold x. replace (x / 1) with x by field. rewrite Hrdot.
    rewrite Hdiff, Htgt.
    pose proof (rnorm_nonneg w) as Hwn.
    assert (Hinner : forall m, 0 <= m -> m = rnorm w ->
      forall oth, exists m', 
       (if isGreaterEq L (leps L) x (s0 (s:=RS M)) && isLessEq L (leps L) x (s1 (s:=RS M)) then Ok m
        else if isLess L (leps L) x (s0 (s:=RS M))
        then if sltb (s:=RS M) k (s0 (s:=RS M)) then Ok (sqrt (rnorm w * rnorm w + x * x)) else Ok m
        else if isGreater L (leps L) x (s1 (s:=RS M))
        then if sltb (s:=RS M) (s0 (s:=RS M)) k then Ok (sqrt (rnorm w * rnorm w + (x - 1) * (x - 1))) else Ok m
        else oth) = Ok m' /\
       is_set_distance (on_segment (g_source g) (g_target g)) (on_ray (r_origin r) (r_dir r)) m').
    { intros m Hm0 Em oth. cbn [s0 s1 sltb RS]. subst m.
      destruct (isGreaterEq L (leps L) x 0) eqn:E1; cbn [andb];
        [destruct (isLessEq L (leps L) x 1) eqn:E2|].
      - apply (greatereq_t HL) in E1; [|exact He]. apply (lesseq_t HL) in E2; [|exact He].
        rewrite He0 in E1, E2. eexists; split; [reflexivity|].
        apply (Hcand _ x 0); try lra. intros. replace ((x + 0 * k - x) * (x + 0 * k - x)) with 0 by ring. apply Rle_0_sqr.
      - apply (lesseq_f HL) in E2; [|exact He].
        destruct (isLess L (leps L) x 0) eqn:E3; [apply (less_t HL) in E3; [lra|exact He]|].
        rewrite (lr_greater_0 L HL) by (exact He || lra).
        destruct (Rltb 0 k) eqn:E4; [apply Rltb_true in E4|apply Rltb_false in E4]; eexists; (split; [reflexivity|]).
        + apply (Hcand _ 1 0); try lra; [apply sqrt_pos| |].
          * rewrite sqrt_sqrt by nra. ring.
          * intros u' v' Hu' Hv'. assert (0 <= v' * k) by nra. nra.
        + apply (Hcand _ 1 ((1 - x) / k)); try lra.
          * replace ((1 - x) / k) with ((x - 1) * / (- k)) by (field; lra).
            apply Rmult_le_pos; [lra|apply Rlt_le, Rinv_0_lt_compat; lra].
          * replace (x + (1 - x) / k * k - 1) with 0 by (field; lra). ring.
          * intros. replace (x + (1 - x) / k * k - 1) with 0 by (field; lra). rewrite Rmult_0_l. apply Rle_0_sqr.
      - apply (greatereq_f HL) in E1; [|exact He].
        rewrite (lr_less_0 L HL) by (exact He || lra).
        destruct (Rltb k 0) eqn:E4; [apply Rltb_true in E4|apply Rltb_false in E4]; eexists; (split; [reflexivity|]).
        + apply (Hcand _ 0 0); try lra; [apply sqrt_pos| |].
          * rewrite sqrt_sqrt by nra. ring.
          * intros u' v' Hu' Hv'. assert (v' * k <= 0) by nra. nra.
        + apply (Hcand _ 0 (- x / k)); try lra.
          * apply Rmult_le_pos; [lra|apply Rlt_le, Rinv_0_lt_compat; lra].
          * replace (x + - x / k * k - 0) with 0 by (field; lra). ring.
          * intros. replace (x + - x / k * k - 0) with 0 by (field; lra). rewrite Rmult_0_l. apply Rle_0_sqr. }
    destruct (negb (isEq L (leps L) (rnorm w) (s0 (s:=RS M)))) eqn:Ew.
    - apply Hinner; [exact Hwn|reflexivity].
    - apply negb_false_iff in Ew. apply (eq_t HL) in Ew; [|exact He]. rewrite He0 in Ew. cbn [s0 RS] in Ew.
      assert (Ew' : rnorm w = 0) by lra.
      apply Hinner; cbn [s0 RS]; [apply Rle_refl|now rewrite Ew'].
  Qed.

  (** no undefined behaviour when the comparisons are complementary *)
  Lemma dist_segment_ray_total (g : segment (RS M) 3) (r : ray (RS M) 3) :
    (forall e a b, isLess L e a b = negb (isGreaterEq L e a b)) ->
    (forall e a b, isGreater L e a b = negb (isLessEq L e a b)) ->
    exists m, dist_segment_ray L g r = Ok m.
  Proof.
    intros H1 H2. unfold dist_segment_ray.
    destruct (closest_params _ _ _ _ _ _) as [[t s]|]; [eexists; reflexivity|].
    rewrite H1, H2. destruct (isGreaterEq _ _ _ (s0 (s:=RS M))), (isLessEq _ _ _ (s1 (s:=RS M))); cbn [andb negb];
      destruct (negb _); try (eexists; reflexivity);
      destruct (sltb _ _); eexists; reflexivity.
  Qed.

  (** ** sphere *)
  Lemma signed_dist_sphere_R (v : vec R 3) (s : sphere (RS M)) :
    signed_dist_sphere v s = rdist v (s_origin s) - s_radius s.
  Proof. unfold signed_dist_sphere. toR. reflexivity. Qed.

  Lemma dist_sphere_spec (v : vec R 3) (s : sphere (RS M)) : 0 <= s_radius s ->
    is_set_distance (fun p => p = v) (on_sphere (s_origin s) (s_radius s)) (dist_sphere v s).
  Proof.
    intros Hr. unfold dist_sphere. rewrite signed_dist_sphere_R. cbn [sabs RS].
    set (c := s_origin s : vec R 3) in *. set (rad := s_radius s : R) in *. clearbody c rad.
    split.
    - intros a b -> Hb. unfold on_sphere in Hb. rewrite <- Hb. apply Rabs_le. split.
      + pose proof (rdist_triangle b v c). rewrite (rdist_sym b v) in H. lra.
      + pose proof (rdist_triangle v b c). lra.
    - destruct (Req_dec (rdist v c) 0) as [E|E].
      + apply rdist_zero in E. subst v.
        exists c, (radd c (rscale rad (mk3 1 0 0))). split; [reflexivity|].
        assert (Hn : rnorm (rscale rad (mk3 1 0 0)) = rad).
        { rewrite rnorm_scale, Rabs_pos_eq by exact Hr. unfold rnorm.
          replace (rdot (mk3 1 0 0) (mk3 1 0 0)) with 1 by (cbn; ring). rewrite sqrt_1. ring. }
        split.
        * unfold on_sphere, rdist. now rewrite rsub_add_cancel.
        * rewrite rdist_self, rdist_sym. unfold rdist. rewrite rsub_add_cancel, Hn.
          rewrite Rminus_0_l, Rabs_Ropp, Rabs_pos_eq by exact Hr. reflexivity.
      + set (p := along c (rsub v c) (rad / rdist v c)).
        pose proof (rdist_nonneg v c) as Hn.
        exists v, p. split; [reflexivity|]. split.
        * unfold on_sphere, p, along. unfold rdist at 1. rewrite rsub_add_cancel, rnorm_scale.
          change (rnorm (rsub v c)) with (rdist v c). rewrite Rabs_pos_eq.
          -- field. exact E.
          -- apply Rmult_le_pos; [exact Hr|]. apply Rlt_le, Rinv_0_lt_compat. lra.
        * unfold rdist at 1. replace (rsub v p) with (rscale (1 - rad / rdist v c) (rsub v c)).
          2:{ unfold p, along. apply eq_by_dot. vdot. ring. }
          rewrite rnorm_scale. change (rnorm (rsub v c)) with (rdist v c).
          rewrite <- (Rabs_pos_eq (rdist v c)) at 2 by exact Hn. rewrite <- Rabs_mult.
          f_equal. field. exact E.
  Qed.

  Lemma sphere_contains_spec (v : vec R 3) (s : sphere (RS M)) :
    (rdist v (s_origin s) <= s_radius s -> sphere_contains L s v = true) /\
    (sphere_contains L s v = true -> rdist v (s_origin s) <= s_radius s + leps L).
  Proof.
    unfold sphere_contains. toR. change (rnorm (rsub v (s_origin s))) with (rdist v (s_origin s)).
    rewrite negb_true_iff. split; intros H.
    - destruct (isGreater L (leps L) (rdist v (s_origin s)) (s_radius s)) eqn:E; [|reflexivity].
      apply (greater_t HL) in E; [lra|exact He].
    - apply (greater_f HL) in H; [|exact He]. exact H.
  Qed.
End Dist2.
