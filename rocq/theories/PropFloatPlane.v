(** * Property theorems: intersections with planes in floating point (C72) *)

From Coq Require Import List Arith Bool Lia Reals Lra ZArith.
From Flocq Require Import Core BinarySingleNaN.
From Verif Require Import Scalar Linal Result SpecReal VecR VecLemmas SpecIEEE SpecFloatErr SpecFloatPlane ModelShapes ModelIntersect
  ProofRound ProofIEEE ProofFloatErr ProofFloatNorm ProofFloatDist ProofFloatTransform ProofFloatPlane PropFloatTess ProofBoxIEEE.
Local Open Scope R_scope.

(** whether there is a result *)
Definition is_some {A} (o : option A) : bool := if o then true else false.

(** the difference of a line direction to itself *)
Lemma rdist_self_le (n : nat) (u : R) (d : vec R n) : 0 <= u -> rdist d d <= u * rnorm d.
Proof. intros Hu. rewrite rdist_self. apply Rmult_le_pos; [exact Hu|apply rnorm_nonneg]. Qed.

(** ** C72: the point reported for a plane and a line is nearly on the line and
    nearly on the plane, and no point is reported only if they are nearly parallel *)
Theorem C72_plane_line :
  forall (p e : Z) (Hp : Prec_gt_0 p) (He : Prec_lt_emax p e) f g h pi, let S := IEEE p e Hp He f g h pi in
  forall (L : Linal S) (t : R), LinalF L t -> 4 * uround p <= 1 / 32 ->
  forall (po nrm o d : vec (binary_float p e) 3),
    finite_pt nrm -> finite_pt d -> rnorm (vreal d) * rnorm (vreal nrm) <= bpow radix2 (e - 3) ->
    let r := @intersect_plane_line S L (leps L) (@mkPlane S po nrm) (@mkLine S 3 o d) in
    (forall q : vec (binary_float p e) 3, r = Some q -> finite_pt q ->
       exists T, near_hit p e (vreal po) (vreal nrm) (vreal o) (vreal d) (vreal q) T) /\
    (r = None -> Rabs (rdot (vreal d) (vreal nrm)) <= t + slope_bound p e (vreal nrm) (vreal d)).
Proof.
  intros p e Hp He f g h pi S L t HL Hn po nrm o d Fn Fd HR r. pose proof (@u_pos p) as Hu.
  pose proof (rdist_self_le 3 (uround p) (vreal d) ltac:(lra)) as Hd.
  pose proof (slope_fin f g h pi Hn nrm d (vreal d) Hd Fd Fn HR) as FD. fold S in FD.
  pose proof (slope_err f g h pi Hn nrm d (vreal d) Hd FD) as ED. fold S in ED.
  unfold r, intersect_plane_line. cbn [p_origin p_normal l_origin l_dir].
  destruct (isZero L (leps L) (@dot S 3 d nrm)) eqn:Z; split.
  - intros q E. discriminate E.
  - intros _. apply (lf_zero_1 _ _ HL _ FD) in Z. set (D := rdot (vreal d) (vreal nrm)) in *. set (x := B2R (@dot S 3 d nrm : binary_float p e)) in *.
    replace D with (x - (x - D)) by ring. unfold Rminus at 1. eapply Rle_trans; [apply Rabs_triang|]. rewrite Rabs_Ropp. lra.
  - intros q E Fq. apply (f_equal (fun x => match x with Some y => y | None => q end)) in E. cbn beta iota in E. subst q.
    destruct (hit_point f g h pi Hn o d (vreal d) Hd _ Fq) as (FT & Fo & HP).
    exists (B2R (@sdiv S (@dot S 3 (@vsub S 3 po o) nrm) (@dot S 3 d nrm) : binary_float p e)). split; [exact HP|].
    exact (hit_plane f g h pi Hn po nrm o d (vreal d) Hd FD FT).
  - intros E. discriminate E.
Qed.
Print Assumptions C72_plane_line.

(** rays: the parameter is positive; a ray that meets the plane clearly after its
    origin is reported *)
Theorem C72_plane_ray :
  forall (p e : Z) (Hp : Prec_gt_0 p) (He : Prec_lt_emax p e) f g h pi, let S := IEEE p e Hp He f g h pi in
  forall (L : Linal S) (t : R), LinalF L t -> 4 * uround p <= 1 / 32 ->
  forall (po nrm o d : vec (binary_float p e) 3),
    finite_pt nrm -> finite_pt d -> rnorm (vreal d) * rnorm (vreal nrm) <= bpow radix2 (e - 3) ->
    let r := @intersect_plane_ray S L (leps L) (@mkPlane S po nrm) (@mkRay S 3 o d) in
    (forall q : vec (binary_float p e) 3, r = Some q -> finite_pt q ->
       exists T, 0 < T /\ near_hit p e (vreal po) (vreal nrm) (vreal o) (vreal d) (vreal q) T) /\
    (forall T, finite_pt po -> finite_pt o -> roomy e (vreal po) (vreal nrm) (vreal o) (vreal d) ->
       let A := slope_bound p e (vreal nrm) (vreal d) in let D := Rabs (rdot (vreal d) (vreal nrm)) in
       t + 2 * A < D -> on_plane (vreal po) (vreal nrm) (along (vreal o) (vreal d) T) ->
       plane_bound p e (vreal po) (vreal nrm) (vreal o) (vreal d) T < (T - t) * (D - A) ->
       exists q, r = Some q).
Proof.
  intros p e Hp He f g h pi S L t HL Hn po nrm o d Fn Fd HR r. pose proof (@u_pos p) as Hu. pose proof (lf_slack _ _ HL) as Ht0.
  pose proof (rdist_self_le 3 (uround p) (vreal d) ltac:(lra)) as Hd.
  pose proof (slope_fin f g h pi Hn nrm d (vreal d) Hd Fd Fn HR) as FD. fold S in FD.
  pose proof (slope_err f g h pi Hn nrm d (vreal d) Hd FD) as ED. fold S in ED.
  unfold r, intersect_plane_ray, plane_param. cbn [p_origin p_normal r_origin r_dir].
  change (@s0 S) with (B754_zero false : binary_float p e).
  set (Tt := @sdiv S (@dot S 3 (@vsub S 3 po o) nrm) (@dot S 3 d nrm) : binary_float p e).
  destruct (isZero L (leps L) (@dot S 3 d nrm)) eqn:Z; split.
  - intros q E. discriminate E.
  - intros T Fpo Fo Hro HD Hpl Hlt. set (A := slope_bound p e (vreal nrm) (vreal d)) in *. set (D := Rabs (rdot (vreal d) (vreal nrm))) in *. exfalso. apply (lf_zero_1 _ _ HL _ FD) in Z. set (x := B2R (@dot S 3 d nrm : binary_float p e)) in *.
    assert (D <= t + A); [|assert (0 <= A) by (eapply Rle_trans; [apply Rabs_pos|exact ED]); lra].
    unfold D. set (D' := rdot (vreal d) (vreal nrm)) in *. replace D' with (x - (x - D')) by ring. unfold Rminus at 1. eapply Rle_trans; [apply Rabs_triang|]. rewrite Rabs_Ropp. lra.
  - intros q E Fq. destruct (isGreater L (leps L) Tt (B754_zero false : binary_float p e)) eqn:G; [|discriminate E].
    apply (f_equal (fun x => match x with Some y => y | None => q end)) in E. cbn beta iota in E. subst q.
    destruct (hit_point f g h pi Hn o d (vreal d) Hd _ Fq) as (FT & Fo & HP).
    apply (lf_greater_1 _ _ HL Tt (B754_zero false) FT eq_refl) in G. change (B2R (B754_zero false : binary_float p e)) with 0 in G.
    exists (B2R Tt). split; [exact G|]. split; [exact HP|]. exact (hit_plane f g h pi Hn po nrm o d (vreal d) Hd FD FT).
  - intros T Fpo Fo Hro HD Hpl Hlt. set (A := slope_bound p e (vreal nrm) (vreal d)) in *. set (D := Rabs (rdot (vreal d) (vreal nrm))) in *. assert (A0 : 0 <= A) by (eapply Rle_trans; [apply Rabs_pos|exact ED]).
    destruct (param_finite f g h pi Hn po nrm o d (vreal d) Hd Fpo Fo Fn Fd Hro ltac:(fold A D; lra)) as (_ & FT). fold S in FT.
    pose proof (param_near f g h pi Hn po nrm o d (vreal d) Hd T FD FT ltac:(fold A D; lra) Hpl) as K. fold S in K. fold A D in K.
    change (Bdiv mode_NE (@dot S 3 (@vsub S 3 po o) nrm) (@dot S 3 d nrm)) with Tt in K, FT.
    assert (K2 : Rabs (B2R Tt - T) < T - t). { apply Rmult_lt_reg_r with (D - A); lra. }
    apply Rabs_def2 in K2.
    assert (G : isGreater L (leps L) Tt (B754_zero false : binary_float p e) = true).
    { apply (lf_greater_0 _ _ HL Tt (B754_zero false) FT eq_refl). change (B2R (B754_zero false : binary_float p e)) with 0. lra. }
    rewrite G. eexists. reflexivity.
Qed.
Print Assumptions C72_plane_ray.

(** segments: the parameter is between 0 and 1 (up to the tolerance, beyond the
    target only); a segment that clearly crosses the plane is reported.  The direction
    is the exact difference of the end points. *)
Theorem C72_plane_segment :
  forall (p e : Z) (Hp : Prec_gt_0 p) (He : Prec_lt_emax p e) f g h pi, let S := IEEE p e Hp He f g h pi in
  forall (L : Linal S) (t : R), LinalF L t -> 4 * uround p <= 1 / 32 ->
  forall (po nrm a b : vec (binary_float p e) 3),
    finite_pt nrm -> finite_pt a -> finite_pt b -> let d := rsub (vreal b) (vreal a) in
    rnorm d <= bpow radix2 (e - 2) -> rnorm d * rnorm (vreal nrm) <= bpow radix2 (e - 3) ->
    let r := @intersect_plane_segment S L (leps L) (@mkPlane S po nrm) (@mkSegment S 3 a b) in
    (forall q : vec (binary_float p e) 3, r = Some q -> finite_pt q ->
       exists T, 0 < T <= 1 + t /\ near_hit p e (vreal po) (vreal nrm) (vreal a) d (vreal q) T) /\
    (forall T, finite_pt po -> roomy e (vreal po) (vreal nrm) (vreal a) d ->
       let A := slope_bound p e (vreal nrm) d in let D := Rabs (rdot d (vreal nrm)) in
       t + 2 * A < D -> on_plane (vreal po) (vreal nrm) (along (vreal a) d T) ->
       plane_bound p e (vreal po) (vreal nrm) (vreal a) d T < (T - t) * (D - A) ->
       plane_bound p e (vreal po) (vreal nrm) (vreal a) d T <= (1 - T) * (D - A) ->
       exists q, r = Some q).
Proof.
  intros p e Hp He f g h pi S L t HL Hn po nrm a b Fn Fa Fb d HR0 HR r. pose proof (@u_pos p) as Hu. pose proof (lf_slack _ _ HL) as Ht0.
  assert (Fd : finite_pt (@vsub S 3 b a : vec (binary_float p e) 3)) by (apply (sub_finite_near f g h pi 3 b a); [lra|exact Fb|exact Fa|exact HR0]).
  pose proof (sub_err f g h pi 3 b a Fb Fa Fd) as Hd. fold S in Hd. change (rdist (vreal b) (vreal a)) with (rnorm d) in Hd. fold d in Hd.
  set (sd := @vsub S 3 b a : vec (binary_float p e) 3) in *.
  pose proof (slope_fin f g h pi Hn nrm sd d Hd Fd Fn HR) as FD. fold S in FD.
  pose proof (slope_err f g h pi Hn nrm sd d Hd FD) as ED. fold S in ED.
  unfold r, intersect_plane_segment, plane_param. cbn [p_origin p_normal g_source g_target]. fold sd.
  change (@s0 S) with (B754_zero false : binary_float p e).
  pose proof (@one_spec p e Hp He) as [F1 E1]. change (ieee_pow p e Hp He 1 0) with (@s1 S) in F1, E1.
  set (Tt := @sdiv S (@dot S 3 (@vsub S 3 po a) nrm) (@dot S 3 sd nrm) : binary_float p e).
  destruct (isZero L (leps L) (@dot S 3 sd nrm)) eqn:Z; split.
  - intros q E. discriminate E.
  - intros T Fpo Hro HD Hpl Hlt _. set (A := slope_bound p e (vreal nrm) d) in *. set (D := Rabs (rdot d (vreal nrm))) in *. exfalso. apply (lf_zero_1 _ _ HL _ FD) in Z. set (x := B2R (@dot S 3 sd nrm : binary_float p e)) in *.
    assert (D <= t + A); [|assert (0 <= A) by (eapply Rle_trans; [apply Rabs_pos|exact ED]); lra].
    unfold D. set (D' := rdot d (vreal nrm)) in *. replace D' with (x - (x - D')) by ring. unfold Rminus at 1. eapply Rle_trans; [apply Rabs_triang|]. rewrite Rabs_Ropp. lra.
  - intros q E Fq. destruct (isGreater L (leps L) Tt (B754_zero false : binary_float p e)) eqn:G; [|discriminate E].
    destruct (isLessEq L (leps L) Tt s1) eqn:G1; [|discriminate E]. cbn [andb] in E.
    apply (f_equal (fun x => match x with Some y => y | None => q end)) in E. cbn beta iota in E. subst q.
    destruct (hit_point f g h pi Hn a sd d Hd _ Fq) as (FT & Fo & HP).
    apply (lf_greater_1 _ _ HL Tt (B754_zero false) FT eq_refl) in G. change (B2R (B754_zero false : binary_float p e)) with 0 in G.
    apply (lf_lesseq_1 _ _ HL Tt (@s1 S) FT F1) in G1. rewrite E1 in G1.
    exists (B2R Tt). split; [lra|]. split; [exact HP|]. exact (hit_plane f g h pi Hn po nrm a sd d Hd FD FT).
  - intros T Fpo Hro HD Hpl Hlt Hle. set (A := slope_bound p e (vreal nrm) d) in *. set (D := Rabs (rdot d (vreal nrm))) in *. assert (A0 : 0 <= A) by (eapply Rle_trans; [apply Rabs_pos|exact ED]).
    destruct (param_finite f g h pi Hn po nrm a sd d Hd Fpo Fa Fn Fd Hro ltac:(fold A D; lra)) as (_ & FT). fold S in FT.
    pose proof (param_near f g h pi Hn po nrm a sd d Hd T FD FT ltac:(fold A D; lra) Hpl) as K. fold S in K. fold A D in K.
    change (Bdiv mode_NE (@dot S 3 (@vsub S 3 po a) nrm) (@dot S 3 sd nrm)) with Tt in K, FT.
    assert (K2 : Rabs (B2R Tt - T) < T - t). { apply Rmult_lt_reg_r with (D - A); lra. }
    assert (K3 : Rabs (B2R Tt - T) <= 1 - T). { apply Rmult_le_reg_r with (D - A); lra. }
    apply Rabs_def2 in K2. apply Rabs_le_inv in K3.
    assert (G : isGreater L (leps L) Tt (B754_zero false : binary_float p e) = true).
    { apply (lf_greater_0 _ _ HL Tt (B754_zero false) FT eq_refl). change (B2R (B754_zero false : binary_float p e)) with 0. lra. }
    assert (G1 : isLessEq L (leps L) Tt s1 = true) by (apply (lf_lesseq_0 _ _ HL Tt (@s1 S) FT F1); rewrite E1; lra).
    rewrite G, G1. eexists. reflexivity.
Qed.
Print Assumptions C72_plane_segment.

(** the distance to the exact intersection point: the error off the plane is
    magnified by the inverse of the sine of the angle between line and plane *)
Theorem C72_forward :
  forall (p e : Z) (n : nat) (po nrm o d q x : vec R n) (T : R), near_hit p e po nrm o d q T ->
    on_plane po nrm x -> on_line o d x -> rdot d nrm <> 0 ->
    rdist q x <= point_bound p e o d T + plane_bound p e po nrm o d T * (rnorm d / Rabs (rdot d nrm)).
Proof. intros p e n po nrm o d q x T. apply near_hit_forward. Qed.
Print Assumptions C72_forward.

(** Without the bound on the slope it fails: the segment from 0 to (m, m, 0), [m] the
    greatest double, crosses the plane through (m/2, m/2, 0) with normal (1, 1, 0) in
    its middle, but no point is reported. *)
Theorem C72_overflow_refuted :
  forall f g h pi, let S := B64 f g h pi in let z := b64_ofZ 0 in
  exists (po a b : vec b64 3) (P : plane S), finite_pt po /\ finite_pt a /\ finite_pt b /\
    P = @plane_make S po (mk3 (b64_ofZ 1) (b64_ofZ 1) z) /\ finite_pt (p_normal P : vec b64 3) /\
    on_plane (vreal (p_origin P)) (vreal (p_normal P)) (along (vreal a) (rsub (vreal b) (vreal a)) (1 / 2)) /\
    forall L : Linal S, L = raw_linal S z \/ L = tol_linal S (b64_pow 1 (-30)) ->
      is_some (@intersect_plane_segment S L (leps L) P (@mkSegment S 3 a b)) = false.
Proof.
  intros f g h pi S z.
  destruct (b64_small 0 eq_refl) as (F0 & E0). fold z in F0, E0.
  set (m := b64_pow (2 ^ 53 - 1) 971). set (m2 := b64_pow (2 ^ 53 - 1) 970).
  destruct (@pow_spec 53 1024 prec53 prec_emax64 (2 ^ 53 - 1) 971 eq_refl ltac:(lia) ltac:(lia)) as [Fm Em].
  destruct (@pow_spec 53 1024 prec53 prec_emax64 (2 ^ 53 - 1) 970 eq_refl ltac:(lia) ltac:(lia)) as [Fm2 Em2].
  change (ieee_pow 53 1024 prec53 prec_emax64 (2 ^ 53 - 1) 971) with m in Fm, Em.
  change (ieee_pow 53 1024 prec53 prec_emax64 (2 ^ 53 - 1) 970) with m2 in Fm2, Em2.
  assert (E : B2R m = 2 * B2R m2).
  { rewrite Em, Em2. replace 971%Z with (1 + 970)%Z by lia. rewrite bpow_plus. change (bpow radix2 1) with 2. ring. }
  exists (mk3 m2 m2 z), (mk3 z z z), (mk3 m m z), (@plane_make S (mk3 m2 m2 z) (mk3 (b64_ofZ 1) (b64_ofZ 1) z)).
  split; [intros [|[|[|i]]] Hi; try lia; assumption|]. split; [intros [|[|[|i]]] Hi; try lia; assumption|].
  split; [intros [|[|[|i]]] Hi; try lia; assumption|]. split; [reflexivity|].
  split; [intros [|[|[|i]]] Hi; try lia; vm_compute; reflexivity|]. split.
  - unfold on_plane. cbn [plane_make p_origin p_normal].
    assert (K : rsub (along (vreal (mk3 z z z)) (rsub (vreal (mk3 m m z)) (vreal (mk3 z z z))) (1 / 2)) (vreal (mk3 m2 m2 z)) = rzero).
    { unfold along, radd, rscale, rsub, vreal, mk3. cbn [vmap vmap2 fst snd]. rewrite E0, E. unfold rzero. cbn. repeat (apply f_equal2; [field|]). reflexivity. }
    rewrite K. apply rdot_zero_r.
  - intros L [-> | ->]; vm_compute; reflexivity.
Qed.
Print Assumptions C72_overflow_refuted.

(** non-vacuity: doubles; the segment from 0 to (0, 0, 4) and the plane at height 1 *)
Example C72_example : forall f g h pi, let S := B64 f g h pi in
  let z := b64_ofZ 0 in let po := mk3 z z (b64_ofZ 1) in let a := mk3 z z z in let b := mk3 z z (b64_ofZ 4) in
  let d := rsub (vreal b) (vreal a) in
  LinalF (raw_linal S z) 0 /\ 4 * uround 53 <= 1 / 32 /\ finite_pt po /\ finite_pt a /\ finite_pt b /\
  rnorm d <= bpow radix2 (1024 - 2) /\ roomy 1024 (vreal po) (vreal po) (vreal a) d /\
  let A := slope_bound 53 1024 (vreal po) d in let D := Rabs (rdot d (vreal po)) in
  0 + 2 * A < D /\ on_plane (vreal po) (vreal po) (along (vreal a) d (1 / 4)) /\
  plane_bound 53 1024 (vreal po) (vreal po) (vreal a) d (1 / 4) < (1 / 4 - 0) * (D - A) /\
  plane_bound 53 1024 (vreal po) (vreal po) (vreal a) d (1 / 4) <= (1 - 1 / 4) * (D - A) /\ rdot d (vreal po) <> 0.
Proof.
  intros f g h pi S z po a b d.
  destruct (b64_small 0 eq_refl) as (F0 & E0), (b64_small 1 eq_refl) as (F1 & E1), (b64_small 4 eq_refl) as (F4 & E4). fold z in F0, E0.
  assert (Hu : 0 < uround 53 <= 1 / 4096). { split; [apply bpow_gt_0|]. apply Rle_trans with (bpow radix2 (-12)); [apply bpow_le; lia|cbn; lra]. }
  assert (Hh : 0 < uflow 53 1024 <= 1 / 4096). { split; [apply bpow_gt_0|]. apply Rle_trans with (bpow radix2 (-12)); [apply bpow_le; lia|cbn; lra]. }
  assert (HB : 64 <= bpow radix2 (1024 - 3)) by (change 64 with (bpow radix2 6); apply bpow_le; lia).
  assert (HB2 : 64 <= bpow radix2 (1024 - 2)) by (change 64 with (bpow radix2 6); apply bpow_le; lia).
  assert (Ep : vreal po = mk3 0 0 1) by (change (vreal po) with (mk3 (B2R z) (B2R z) (B2R (b64_ofZ 1))); now rewrite E0, E1).
  assert (Ea : vreal a = mk3 0 0 0) by (change (vreal a) with (mk3 (B2R z) (B2R z) (B2R z)); now rewrite E0).
  assert (Ed : d = mk3 0 0 4). { unfold d. rewrite Ea. change (vreal b) with (mk3 (B2R z) (B2R z) (B2R (b64_ofZ 4))). rewrite E0, E4. unfold rsub, mk3. cbn [vmap2 fst snd]. repeat (apply f_equal2; [ring|]). reflexivity. }
  assert (N1 : rnorm (mk3 0 0 1) = 1). { unfold rnorm, rdot, mk3. cbn. replace (0 * 0 + (0 * 0 + (1 * 1 + 0))) with (1 * 1) by ring. apply sqrt_square. lra. }
  assert (N4 : rnorm (mk3 0 0 4) = 4). { unfold rnorm, rdot, mk3. cbn. replace (0 * 0 + (0 * 0 + (4 * 4 + 0))) with (4 * 4) by ring. apply sqrt_square. lra. }
  assert (Nd : rdist (mk3 0 0 1) (mk3 0 0 0) = 1).
  { unfold rdist. replace (rsub (mk3 0 0 1) (mk3 0 0 0)) with (mk3 0 0 1); [exact N1|]. unfold rsub, mk3. cbn. repeat (apply f_equal2; [ring|]). reflexivity. }
  assert (Dd : rdot (mk3 0 0 4) (mk3 0 0 1) = 4) by (unfold rdot, mk3; cbn; ring).
  split; [exact (raw_linal_F f g h pi z)|]. split; [lra|].
  split; [intros [|[|[|i]]] Hi; try lia; assumption|]. split; [intros [|[|[|i]]] Hi; try lia; assumption|]. split; [intros [|[|[|i]]] Hi; try lia; assumption|].
  rewrite Ep, Ea, Ed. unfold roomy, slope_bound, plane_bound. cbv zeta. rewrite N1, N4, Nd, Dd, !Rabs_pos_eq by lra.
  split; [lra|]. split; [repeat split; lra|]. split; [lra|]. split; [unfold on_plane, along, rdot, rsub, radd, rscale, mk3; cbn; field|]. repeat split; lra.
Qed.
