(** * Proofs about primitives and distances (exact reals) *)

From Coq Require Import Reals Lra Psatz List Bool Arith Lia.
From Verif Require Import Scalar Linal Result SpecReal VecR VecLemmas ModelShapes ModelDistance.
Local Open Scope R_scope.

(** ** geometry of lines, without the model *)

Lemma rdist_le_of_sq {n} (a b c d : vec R n) :
  rdot (rsub a b) (rsub a b) <= rdot (rsub c d) (rsub c d) -> rdist a b <= rdist c d.
Proof. intros H. apply sqrt_le_1_alt. exact H. Qed.

Lemma sq_mul_nonneg x d : 0 <= d -> 0 <= x * x * d.
Proof. intros H. apply Rmult_le_pos; [apply Rle_0_sqr|exact H]. Qed.

Lemma nonzero_dot {n} (d : vec R n) : d <> rzero -> 0 < rdot d d.
Proof.
  intros H. pose proof (rdot_self_nonneg d). destruct (Req_dec (rdot d d) 0) as [E|E]; [|lra].
  apply rdot_self_zero in E. contradiction.
Qed.
Lemma nonzero_norm {n} (d : vec R n) : d <> rzero -> 0 < rnorm d.
Proof. intros H. apply sqrt_lt_R0, nonzero_dot, H. Qed.

Lemma foot_min {n} (o d v : vec R n) t u :
  rdot d (rsub (along o d t) v) = 0 -> rdist v (along o d t) <= rdist v (along o d u).
Proof.
  intros H. apply rdist_le_of_sq. unfold along in *.
  assert (E : rdot (rsub v (radd o (rscale u d))) (rsub v (radd o (rscale u d)))
    = rdot (rsub v (radd o (rscale t d))) (rsub v (radd o (rscale t d)))
      + (u - t) * (u - t) * rdot d d + 2 * (u - t) * rdot d (rsub (radd o (rscale t d)) v)).
  { vring. }
  rewrite E, H. pose proof (sq_mul_nonneg (u - t) (rdot d d) (rdot_self_nonneg d)). lra.
Qed.

Lemma foot_param {n} (o d v : vec R n) : d <> rzero ->
  rdot d (rsub (along o d (rdot (rsub v o) d / rdot d d)) v) = 0.
Proof.
  intros H. pose proof (nonzero_dot d H). unfold along. vdot. dcomm. field. lra.
Qed.

Lemma closest_ortho {n} (lo ld ro rd : vec R n) t s u v :
  rdot ld (rsub (along lo ld t) (along ro rd s)) = 0 ->
  rdot rd (rsub (along lo ld t) (along ro rd s)) = 0 ->
  rdot (rsub (along lo ld u) (along ro rd v)) (rsub (along lo ld u) (along ro rd v)) =
  rdot (rsub (along lo ld t) (along ro rd s)) (rsub (along lo ld t) (along ro rd s)) +
  ((u - t) * (u - t) * rdot ld ld - 2 * (u - t) * (v - s) * rdot ld rd + (v - s) * (v - s) * rdot rd rd).
Proof.
  intros H1 H2. unfold along in *.
  assert (E : rdot (rsub (radd lo (rscale u ld)) (radd ro (rscale v rd)))
                   (rsub (radd lo (rscale u ld)) (radd ro (rscale v rd))) =
    rdot (rsub (radd lo (rscale t ld)) (radd ro (rscale s rd)))
         (rsub (radd lo (rscale t ld)) (radd ro (rscale s rd))) +
    ((u - t) * (u - t) * rdot ld ld - 2 * (u - t) * (v - s) * rdot ld rd + (v - s) * (v - s) * rdot rd rd)
    + 2 * (u - t) * rdot ld (rsub (radd lo (rscale t ld)) (radd ro (rscale s rd)))
    - 2 * (v - s) * rdot rd (rsub (radd lo (rscale t ld)) (radd ro (rscale s rd)))) by vring.
  rewrite E, H1, H2. ring.
Qed.

Lemma gram_nonneg {n} (u v : vec R n) : 0 <= gram u v.
Proof. unfold gram. pose proof (cauchy_schwarz_sq u v). lra. Qed.

Lemma gram_quad {n} (ld rd : vec R n) x y :
  rdot ld ld * (x * x * rdot ld ld - 2 * x * y * rdot ld rd + y * y * rdot rd rd) =
  (x * rdot ld ld - y * rdot ld rd) * (x * rdot ld ld - y * rdot ld rd) + y * y * gram ld rd.
Proof. unfold gram. ring. Qed.

Lemma gram_pos_l {n} (u v : vec R n) : gram u v <> 0 -> 0 < rdot u u.
Proof.
  intros H. pose proof (rdot_self_nonneg u). destruct (Req_dec (rdot u u) 0) as [E|]; [|lra].
  apply rdot_self_zero in E. subst. exfalso; apply H. unfold gram. vdot. ring.
Qed.

(** linearly dependent directions *)
Lemma gram_zero_parallel {n} (u v : vec R n) : u <> rzero -> gram u v = 0 -> exists k, v = rscale k u.
Proof.
  intros Hu H. pose proof (nonzero_dot u Hu). exists (rdot u v / rdot u u). apply eq_by_dot.
  vdot. dcomm. unfold gram in H.
  replace (rdot v v) with (rdot u v * rdot u v / rdot u u).
  2:{ apply Rmult_eq_reg_l with (rdot u u); [|lra]. field_simplify; [|lra]. lra. }
  field. lra.
Qed.
Lemma parallel_gram {n} (u : vec R n) k : gram u (rscale k u) = 0.
Proof. unfold gram. vdot. ring. Qed.

(** ** closest points of two lines *)
Section Closest.
  Context {M : R} {L : Linal (RS M)} (HL : LinalR L).

  Lemma closest_params_gram eps (lo ld ro rd : vec R 3) :
    closest_params L eps lo ld ro rd =
    if isZero L eps (gram ld rd) then None
    else Some ((rdot ld rd * rdot rd (rsub lo ro) - rdot rd rd * rdot ld (rsub lo ro)) / gram ld rd,
               (rdot ld ld * rdot rd (rsub lo ro) - rdot ld rd * rdot ld (rsub lo ro)) / gram ld rd).
  Proof. unfold closest_params, gram. rewrite !dot_R. reflexivity. Qed.

  Lemma closest_params_some eps (lo ld ro rd : vec R 3) t s :
    0 <= eps -> closest_params L eps lo ld ro rd = Some (t, s) ->
    gram ld rd <> 0 /\
    rdot ld (rsub (along lo ld t) (along ro rd s)) = 0 /\
    rdot rd (rsub (along lo ld t) (along ro rd s)) = 0.
  Proof.
    intros He H. rewrite closest_params_gram in H.
    destruct (isZero L eps (gram ld rd)) eqn:E; [discriminate|].
    apply (zero_f HL) in E; [|assumption]. apply Some_inj, pair_equal_spec in H as [<- <-].
    split; [exact E|]. unfold along, gram in *. split; vdot; rewrite ?(rdot_comm rd ld); field; exact E.
  Qed.

  Lemma closest_params_none eps (lo ld ro rd : vec R 3) :
    0 <= eps -> closest_params L eps lo ld ro rd = None -> gram ld rd <= eps.
  Proof.
    intros He H. rewrite closest_params_gram in H.
    destruct (isZero L eps (gram ld rd)) eqn:E; [|discriminate].
    apply (zero_t HL) in E; [|assumption]. lra.
  Qed.

  Lemma closest_params_parallel eps (lo ld ro rd : vec R 3) :
    0 <= eps -> gram ld rd = 0 -> closest_params L eps lo ld ro rd = None.
  Proof.
    intros He H. rewrite closest_params_gram, H, (lr_zero_0 L HL) by assumption. reflexivity.
  Qed.

  Lemma closest_params_min eps (lo ld ro rd : vec R 3) t s :
    0 <= eps -> closest_params L eps lo ld ro rd = Some (t, s) ->
    forall u v, rdist (along lo ld t) (along ro rd s) <= rdist (along lo ld u) (along ro rd v).
  Proof.
    intros He H u v. destruct (closest_params_some _ _ _ _ _ _ _ He H) as (Hg & H1 & H2).
    apply rdist_le_of_sq. rewrite (closest_ortho lo ld ro rd t s u v H1 H2).
    pose proof (gram_nonneg ld rd) as Hn. pose proof (gram_pos_l ld rd Hg) as Ha.
    pose proof (gram_quad ld rd (u - t) (v - s)) as Hq.
    assert (0 <= (u - t) * (u - t) * rdot ld ld - 2 * (u - t) * (v - s) * rdot ld rd + (v - s) * (v - s) * rdot rd rd).
    { apply Rmult_le_reg_l with (rdot ld ld); [assumption|]. rewrite Hq.
      pose proof (Rle_0_sqr ((u - t) * rdot ld ld - (v - s) * rdot ld rd)) as Hs. unfold Rsqr in Hs.
      pose proof (Rle_0_sqr (v - s)) as Hs2. unfold Rsqr in Hs2. nra. }
    lra.
  Qed.

  Lemma closest_params_unique eps (lo ld ro rd : vec R 3) t s :
    0 <= eps -> closest_params L eps lo ld ro rd = Some (t, s) ->
    forall u v, rdist (along lo ld u) (along ro rd v) <= rdist (along lo ld t) (along ro rd s) -> u = t /\ v = s.
  Proof.
    intros He H u v Hle. destruct (closest_params_some _ _ _ _ _ _ _ He H) as (Hg & H1 & H2).
    pose proof (closest_ortho lo ld ro rd t s u v H1 H2) as E.
    rewrite <- !rdist_sq in E.
    pose proof (rdist_nonneg (along lo ld u) (along ro rd v)).
    pose proof (gram_nonneg ld rd) as Hn. pose proof (gram_pos_l ld rd Hg) as Ha.
    pose proof (gram_quad ld rd (u - t) (v - s)) as Hq.
    assert (Hle2 : (u - t) * (u - t) * rdot ld ld - 2 * (u - t) * (v - s) * rdot ld rd + (v - s) * (v - s) * rdot rd rd <= 0) by nra.
    set (q := (u - t) * (u - t) * rdot ld ld - 2 * (u - t) * (v - s) * rdot ld rd + (v - s) * (v - s) * rdot rd rd) in *.
    assert (rdot ld ld * q <= 0) by nra.
    pose proof (Rle_0_sqr ((u - t) * rdot ld ld - (v - s) * rdot ld rd)) as Hs. unfold Rsqr in Hs.
    pose proof (Rle_0_sqr (v - s)) as Hs2. unfold Rsqr in Hs2.
    assert (Hv : (v - s) * (v - s) * gram ld rd = 0) by nra.
    apply Rmult_integral in Hv. destruct Hv as [Hv|Hv]; [|contradiction].
    assert (Ev : v - s = 0) by (apply Rmult_integral in Hv; tauto).
    rewrite Ev in Hq. ring_simplify in Hq.
    assert (Hu : (u - t) * (u - t) * (rdot ld ld * rdot ld ld) = 0) by (rewrite Ev in *; nra).
    apply Rmult_integral in Hu. destruct Hu as [Hu|Hu].
    - apply Rmult_integral in Hu. split; lra.
    - exfalso. nra.
  Qed.
End Closest.

(** ** distances *)
Section Dist.
  Context {M : R} {L : Linal (RS M)} (HL : LinalR L).
  Let He : 0 <= leps L := lr_eps L HL.

  Lemma dist_point_line_R n (v : vec R n) (l : line (RS M) n) : l_dir l <> rzero ->
    dist_point_line v l = rdist v (along (l_origin l) (l_dir l) (rdot (rsub v (l_origin l)) (l_dir l) / rdot (l_dir l) (l_dir l))).
  Proof.
    intros Hd. pose proof (nonzero_dot _ Hd). unfold dist_point_line. toR. unfold rdist, rnorm.
    apply (f_equal sqrt). unfold along. vdot. dcomm. field. lra.
  Qed.

  Lemma dist_point_line_spec n (v : vec R n) (l : line (RS M) n) : l_dir l <> rzero ->
    is_set_distance (fun p => p = v) (on_line (l_origin l) (l_dir l)) (dist_point_line v l).
  Proof.
    intros Hd. rewrite dist_point_line_R by assumption. split.
    - intros a b -> (u & ->). apply foot_min, foot_param, Hd.
    - exists v. eexists. split; [reflexivity|]. split; [eexists; reflexivity|reflexivity].
  Qed.

  Lemma dist_plane_point_spec (v : vec R 3) (p : plane (RS M)) : rnorm (p_normal p) = 1 ->
    is_set_distance (fun q => q = v) (on_plane (p_origin p) (p_normal p)) (dist_plane_point p v).
  Proof.
    intros Hn. unfold dist_plane_point. toR. cbn [sabs RS].
    assert (Hnn : rdot (p_normal p) (p_normal p) = 1) by (rewrite <- rnorm_sq, Hn; ring).
    set (nrm := p_normal p : vec R 3) in *. set (o := p_origin p : vec R 3) in *. clearbody nrm o.
    split.
    - intros a b -> Hb. unfold on_plane in Hb.
      replace (rdot (rsub o v) nrm) with (rdot (rsub b v) nrm).
      2:{ vdot_in Hb. vdot. rewrite (rdot_comm o nrm), (rdot_comm b nrm). lra. }
      eapply Rle_trans; [apply cauchy_schwarz|]. rewrite Hn.
      rewrite (rdist_sym v b). unfold rdist. lra.
    - exists v, (radd v (rscale (rdot (rsub o v) nrm) nrm)). split; [reflexivity|]. split.
      + unfold on_plane. vdot. rewrite Hnn. dcomm. ring.
      + unfold rdist. replace (rsub v (radd v (rscale (rdot (rsub o v) nrm) nrm)))
          with (rscale (- rdot (rsub o v) nrm) nrm) by (apply eq_by_dot; vring).
        rewrite rnorm_scale, Hn, Rabs_Ropp. ring.
  Qed.

  Lemma dist_ray_point_spec n (v : vec R n) (r : ray (RS M) n) : r_dir r <> rzero ->
    exists m, is_set_distance (fun p => p = v) (on_ray (r_origin r) (r_dir r)) m /\
      m <= dist_ray_point L r v <= m + leps L / rnorm (r_dir r).
  Proof.
    intros Hd. pose proof (nonzero_dot _ Hd) as Hdd. pose proof (nonzero_norm _ Hd) as Hdn.
    unfold dist_ray_point. toR.
    set (d := r_dir r : vec R n) in *. set (o := r_origin r : vec R n) in *. clearbody d o.
    set (t := rdot (rsub v o) d / rdot d d).
    assert (Hfoot : forall u, rdist v (along o d t) <= rdist v (along o d u)) by (intros u; apply foot_min, foot_param, Hd).
    destruct (Rle_dec 0 (rdot (rsub v o) d)) as [Hpos|Hneg].
    - (* the foot is on the ray *)
      assert (Ht : 0 <= t) by (apply Rmult_le_pos; [exact Hpos|apply Rlt_le, Rinv_0_lt_compat; exact Hdd]).
      exists (rdist v (along o d t)). split.
      { split; [intros a b -> (u & _ & ->); apply Hfoot|].
        exists v. eexists. split; [reflexivity|]. split; [exists t; split; [exact Ht|reflexivity]|reflexivity]. }
      assert (Hrej : rnorm (rsub (rsub v o) (rscale t d)) = rdist v (along o d t)).
      { unfold rdist, rnorm. apply (f_equal sqrt). unfold along, t. vdot. dcomm. field. lra. }
      assert (Hdiv : 0 <= leps L / rnorm d).
      { apply Rmult_le_pos; [exact He|apply Rlt_le, Rinv_0_lt_compat; exact Hdn]. }
      destruct (isGreater L (leps L) (rdot (rsub v o) d) (s0 (s:=RS M))) eqn:E.
      + rewrite Hrej. lra.
      + apply (greater_f HL) in E; [|exact He]. cbn [s0 RS] in E.
        assert (Eo : rnorm (rsub o v) = rdist v (along o d 0)).
        { unfold rdist, rnorm. apply (f_equal sqrt). unfold along. vdot. dcomm. ring. }
        rewrite Eo. split; [apply Hfoot|].
        eapply Rle_trans; [apply (rdist_triangle v (along o d t))|].
        apply Rplus_le_compat_l. unfold rdist.
        replace (rsub (along o d t) (along o d 0)) with (rscale t d).
        2:{ apply eq_by_dot. unfold along. vring. }
        rewrite rnorm_scale, Rabs_pos_eq by exact Ht. unfold t.
        rewrite <- rnorm_sq. apply Rmult_le_reg_r with (rnorm d); [exact Hdn|].
        field_simplify; [|lra|lra]. lra.
    - (* the origin is nearest *)
      exists (rdist v o). assert (Eo : rnorm (rsub o v) = rdist v o) by (rewrite rdist_sym; reflexivity).
      assert (Hdiv : 0 <= leps L / rnorm d).
      { apply Rmult_le_pos; [exact He|apply Rlt_le, Rinv_0_lt_compat; exact Hdn]. }
      split.
      + split.
        * intros a b -> (u & Hu & ->). apply rdist_le_of_sq. unfold along.
          assert (E : rdot (rsub v (radd o (rscale u d))) (rsub v (radd o (rscale u d))) =
            rdot (rsub v o) (rsub v o) - 2 * u * rdot (rsub v o) d + u * u * rdot d d) by vring.
          rewrite E. nra.
        * exists v, o. split; [reflexivity|]. split; [|reflexivity]. exists 0. split; [lra|].
          unfold along. now rewrite rscale_0, radd_zero_r.
      + destruct (isGreater L (leps L) (rdot (rsub v o) d) (s0 (s:=RS M))) eqn:E.
        * apply (greater_t HL) in E; [|exact He]. cbn [s0 RS] in E. lra.
        * rewrite Eo. lra.
  Qed.

  (** *** line - ray *)
  Lemma dist_line_ray_spec (l : line (RS M) 3) (r : ray (RS M) 3) :
    l_dir l <> rzero -> r_dir r <> rzero ->
    gram (l_dir l) (r_dir r) = 0 \/ leps L < gram (l_dir l) (r_dir r) ->
    is_set_distance (on_line (l_origin l) (l_dir l)) (on_ray (r_origin r) (r_dir r)) (dist_line_ray L l r).
  Proof.
    intros Hld Hrd Hg. unfold dist_line_ray.
    assert (Hpl := dist_point_line_R 3 (r_origin r) l Hld).
    assert (Hfoot : forall u, rdist (r_origin r) (along (l_origin l) (l_dir l) (rdot (rsub (r_origin r) (l_origin l)) (l_dir l) / rdot (l_dir l) (l_dir l)))
       <= rdist (r_origin r) (along (l_origin l) (l_dir l) u)) by (intros u; apply foot_min, foot_param, Hld).
    assert (Hortho := foot_param (l_origin l) (l_dir l) (r_origin r) Hld).
    destruct (closest_params L (leps L) (l_origin l) (l_dir l) (r_origin r) (r_dir r)) as [[t s]|] eqn:E.
    - destruct (closest_params_some HL _ _ _ _ _ _ _ He E) as (Hg0 & H1 & H2).
      destruct (sltb (s:=RS M) s (s0 (s:=RS M))) eqn:Es; cbn in Es.
      + apply Rltb_true in Es. rewrite Hpl.
        set (ld := l_dir l : vec R 3) in *. set (lo := l_origin l : vec R 3) in *.
        set (rd := r_dir r : vec R 3) in *. set (ro := r_origin r : vec R 3) in *. clearbody ld lo rd ro.
        set (u0 := rdot (rsub ro lo) ld / rdot ld ld) in *.
        pose proof (nonzero_dot _ Hld) as Ha. pose proof (gram_nonneg ld rd) as Hgn.
        split.
        * intros a b (u & ->) (v & Hv & ->). rewrite (rdist_sym ro). apply rdist_le_of_sq.
          replace ro with (along ro rd 0) at 1 2 by (unfold along; now rewrite rscale_0, radd_zero_r).
          rewrite (closest_ortho lo ld ro rd t s u0 0 H1 H2), (closest_ortho lo ld ro rd t s u v H1 H2).
          apply Rplus_le_compat_l. apply Rmult_le_reg_l with (rdot ld ld); [exact Ha|].
          rewrite !gram_quad.
          assert (Hz : (u0 - t) * rdot ld ld - (0 - s) * rdot ld rd = 0).
          { revert Hortho H1. unfold along. vdot. dcomm. intros. lra. }
          rewrite Hz.
          pose proof (Rle_0_sqr ((u - t) * rdot ld ld - (v - s) * rdot ld rd)) as Hs. unfold Rsqr in Hs.
          assert ((0 - s) * (0 - s) <= (v - s) * (v - s)) by nra.
          nra.
        * exists (along lo ld u0), ro. split; [eexists; reflexivity|]. split; [|apply rdist_sym].
          exists 0. split; [lra|]. unfold along. now rewrite rscale_0, radd_zero_r.
      + apply Rltb_false in Es. toR. split.
        * intros a b (u & ->) (v & Hv & ->). apply (closest_params_min HL _ _ _ _ _ _ _ He E).
        * eexists; eexists. split; [eexists; reflexivity|]. split; [exists s; split; [exact Es|reflexivity]|reflexivity].
    - assert (Hg0 : gram (l_dir l) (r_dir r) = 0).
      { destruct Hg as [Hg|Hg]; [exact Hg|]. pose proof (closest_params_none HL _ _ _ _ _ He E). lra. }
      destruct (gram_zero_parallel _ _ Hld Hg0) as [k Hk].
      rewrite Hpl. split.
      + intros a b (u & ->) (v & Hv & ->). rewrite (rdist_sym (along _ _ u)). 
        eapply Rle_trans; [apply (Hfoot (u - v * k))|]. rewrite Hk.
        apply Req_le. unfold rdist, rnorm. apply (f_equal sqrt). unfold along. vring.
      + eexists; eexists. split; [eexists; reflexivity|].
        split; [exists 0; split; [lra|reflexivity]|].
        rewrite rdist_sym. apply (f_equal (fun x => rdist x _)). unfold along. now rewrite rscale_0, radd_zero_r.
  Qed.
End Dist.
