(** * Property theorems: distances to spheres and planes in floating point (C66) *)

From Coq Require Import List Arith Bool Lia Reals Lra ZArith.
From Flocq Require Import Core BinarySingleNaN.
From Verif Require Import Scalar Linal Result SpecReal VecR VecLemmas SpecIEEE SpecFloatErr ModelShapes ModelDistance ProofDistance ProofDistance2 ProofRound ProofIEEE ProofBoxIEEE ProofFloatErr ProofFloatNorm ProofFloatDist PropFloatNorm.
Local Open Scope R_scope.

(** ** C66: the computed distances of a point to a sphere and to a plane are the
    exact ones up to a few rounding errors of the distance to the centre (the
    origin), for every IEEE format of at least 7 bits; points may be arbitrarily
    close, but the square of their distance must not overflow. *)
Theorem C66_sphere_distance :
  forall (p e : Z) (Hp : Prec_gt_0 p) (He : Prec_lt_emax p e) f g h pi, let S := IEEE p e Hp He f g h pi in
  forall (v : vec (binary_float p e) 3) (s : sphere S),
    let o := s_origin s : vec (binary_float p e) 3 in let r := s_radius s : binary_float p e in
    4 * uround p <= 1 / 32 -> in_reach v o -> is_finite r = true -> 0 <= B2R r ->
    let N := rdist (vreal v) (vreal o) in
    let err := 7 * uround p * N + uround p * Rabs (N - B2R r) + 4 * sqrt (uflow p e) in
    (let x := @signed_dist_sphere S v s : binary_float p e in is_finite x = true /\ Rabs (B2R x - (N - B2R r)) <= err) /\
    (let x := @dist_sphere S v s : binary_float p e in is_finite x = true /\
       exists m, is_set_distance (fun q => q = vreal v) (on_sphere (vreal o) (B2R r)) m /\ Rabs (B2R x - m) <= err).
Proof.
  intros p e Hp He f g h pi S v s o r Hn HR Hr Hr0 N err.
  destruct (signed_err f g h pi v o r Hn HR Hr Hr0) as [H1 H2]. split; [split; [exact H1|exact H2]|].
  unfold dist_sphere. set (y := @signed_dist_sphere S v s : binary_float p e) in *.
  split; [change (is_finite (Babs y) = true); rewrite is_finite_Babs; exact H1|].
  exists (Rabs (N - B2R r)). split.
  - exact (@dist_sphere_spec 0 (vreal v) (@mkSphere (RS 0) (vreal o) (B2R r)) Hr0).
  - change (@sabs S y) with (Babs y). rewrite B2R_Babs. eapply Rle_trans; [apply Rabs_triang_inv2|exact H2].
Qed.
Print Assumptions C66_sphere_distance.

(** the containment test: a point well inside is reported, a reported point is
    outside by no more than the tolerance and the rounding errors *)
Theorem C66_sphere_contains :
  forall (p e : Z) (Hp : Prec_gt_0 p) (He : Prec_lt_emax p e) f g h pi, let S := IEEE p e Hp He f g h pi in
  forall (L : Linal S) (t : R), LinalF L t ->
  forall (v : vec (binary_float p e) 3) (s : sphere S),
    let o := s_origin s : vec (binary_float p e) 3 in let r := s_radius s : binary_float p e in
    4 * uround p <= 1 / 32 -> in_reach v o -> is_finite r = true ->
    let N := rdist (vreal v) (vreal o) in
    let err := 6 * uround p * N + 4 * sqrt (uflow p e) in
    (N + err <= B2R r -> sphere_contains L s v = true) /\
    (sphere_contains L s v = true -> N - err <= B2R r + t).
Proof.
  intros p e Hp He f g h pi S L t HL v s o r Hn HR Hr N err.
  destruct (distance_err f g h pi 3 v o) as (L1 & L2 & L3); [cbn; lra|exact HR|]. fold S N in L1, L2, L3.
  assert (S3 : sqrt (INR 3 * eta (p := p) (e := e)) <= 18 / 10 * sqrt (uflow p e)).
  { rewrite sqrt_mult; [|cbn; lra|left; apply bpow_gt_0]. apply Rmult_le_compat_r; [apply sqrt_pos|]. rewrite <- (sqrt_square (18 / 10)) by lra. apply sqrt_le_1_alt. cbn. lra. }
  pose proof (sqrt_pos (uflow p e)) as Hq.
  assert (E : Rabs (B2R (@vlength S 3 (@vsub S 3 v o) : binary_float p e) - N) <= err).
  { eapply Rle_trans; [exact L3|]. unfold err. apply Rplus_le_compat; [right; cbn; ring|lra]. }
  apply Rabs_le_inv in E.
  set (l := @vlength S 3 (@vsub S 3 v o) : binary_float p e) in *. split; intros H.
  - change (negb (isGreater L (leps L) l r) = true). destruct (isGreater L (leps L) l r) eqn:G; [|reflexivity]. apply (lf_greater_1 _ _ HL l r L1 Hr) in G. lra.
  - destruct (Rle_dec (N - err) (B2R r + t)) as [C|C]; [exact C|].
    unfold sphere_contains in H. assert (G : isGreater L (leps L) l r = true) by (apply (lf_greater_0 _ _ HL l r L1 Hr); lra).
    exfalso. change (negb (isGreater L (leps L) l r) = true) in H. rewrite G in H. discriminate.
Qed.
Print Assumptions C66_sphere_contains.

(** the plane through [o] orthogonal to [d] *)
Theorem C66_plane_distance :
  forall (p e : Z) (Hp : Prec_gt_0 p) (He : Prec_lt_emax p e) f g h pi, let S := IEEE p e Hp He f g h pi in
  forall (k K : Z) (v o d : vec (binary_float p e) 3),
    4 * uround p <= 1 / 32 -> moderate k K d -> in_reach o v ->
    let x := @dist_plane_point S (@plane_make S o d) v : binary_float p e in
    is_finite x = true /\
    exists m, is_set_distance (fun q => q = vreal v) (on_plane (vreal o) (vreal d)) m /\
      Rabs (B2R x - m) <= 13 * uround p * rdist (vreal o) (vreal v) + 4 * uflow p e.
Proof.
  intros p e Hp He f g h pi S k K v o d Hn Hm HR x. pose proof (@u_pos p) as Hu.
  assert (Hn4 : (INR 3 + 1) * uround p <= 1 / 32) by (cbn; lra).
  destruct (C65_plane_normalised p e Hp He f g h pi k K o d Hn4 Hm) as (_ & F & E1 & E2). fold S in F, E1, E2.
  destruct (length_err f g h pi 3 d k K Hn4 Hm) as (HNd & _).
  set (nrm := p_normal (@plane_make S o d) : vec (binary_float p e) 3) in *. set (w := vreal nrm) in *. set (a := rsub (vreal o) (vreal v)).
  set (dd := rdirection (vreal d)) in *. replace (INR 3 + 3) with 6 in E1, E2 by (cbn; ring).
  assert (Hd1 : rnorm dd = 1). { apply rnorm_normalize. intros Q. rewrite Q, rnorm_rzero in HNd. lra. }
  apply Rabs_le_inv in E2.
  assert (Hb : rnorm w <= 2) by lra.
  destruct (plane_err f g h pi o v nrm Hn HR F Hb) as [X1 X2]. fold S in X1, X2. fold w a in X2.
  set (y := @dot S 3 (@vsub S 3 o v) nrm : binary_float p e) in *.
  split; [change (is_finite (Babs y) = true); rewrite is_finite_Babs; exact X1|].
  exists (Rabs (rdot a dd)). split.
  - pose proof (@dist_plane_point_spec 0 (vreal v) (@mkPlane (RS 0) (vreal o) dd) Hd1) as [D1 (q1 & q2 & Q1 & Q2 & Q3)]. cbn [p_origin p_normal] in *.
    assert (Eq : forall q, on_plane (vreal o) (vreal d) q <-> on_plane (vreal o) dd q).
    { intros q. unfold on_plane, dd, rdirection. set (c := rsub q (vreal o)). set (z := / rnorm (vreal d)).
      assert (Hz : 0 < z) by (apply Rinv_0_lt_compat; exact HNd).
      replace (rdot (rscale z (vreal d)) c) with (z * rdot (vreal d) c).
      - split; intros Q; [rewrite Q; ring|]. apply Rmult_integral in Q. destruct Q; [lra|assumption].
      - clear. destruct (vreal d) as [x1 [x2 [x3 []]]], c as [y1 [y2 [y3 []]]]. cbn. ring. }
    split; [intros q q' H1 H2; apply D1; [exact H1|apply Eq; exact H2]|].
    exists q1, q2. split; [exact Q1|]. split; [apply Eq; exact Q2|exact Q3].
  - change x with (Babs y). rewrite B2R_Babs. eapply Rle_trans; [apply Rabs_triang_inv2|].
    replace (B2R y - rdot a dd) with ((B2R y - rdot a w) + (rdot a w - rdot a dd)) by ring. eapply Rle_trans; [apply Rabs_triang|].
    set (N := rdist (vreal o) (vreal v)) in *. assert (HN : 0 <= N) by apply rnorm_nonneg.
    assert (T : Rabs (rdot a w - rdot a dd) <= N * (6 * uround p)).
    { replace (rdot a w - rdot a dd) with (rdot a (rsub w dd)).
      - eapply Rle_trans; [apply cauchy_schwarz|]. apply Rmult_le_compat_l; [exact HN|exact E1].
      - clear. destruct a as [x1 [x2 [x3 []]]], w as [y1 [y2 [y3 []]]], dd as [z1 [z2 [z3 []]]]. cbn. ring. }
    assert (P : 0 <= uround p * N) by (apply Rmult_le_pos; lra).
    assert (T2 : 6 * uround p * (N * rnorm w) <= 6 * uround p * (N * (16 / 15))).
    { apply Rmult_le_compat_l; [lra|]. apply Rmult_le_compat_l; [exact HN|]. lra. }
    change (eta (p := p) (e := e)) with (uflow p e) in X2. lra.
Qed.
Print Assumptions C66_plane_distance.

(** If the square of a difference overflows, the distance to every sphere about
    that centre is infinite and no finite radius contains the point. *)
Theorem C66_overflow_refuted :
  forall (p e : Z) (Hp : Prec_gt_0 p) (He : Prec_lt_emax p e) f g h pi, let S := IEEE p e Hp He f g h pi in
  forall (eps : S) (K : Z) (v : vec (binary_float p e) 3) (s : sphere S) (i : nat),
    is_finite (eps : binary_float p e) = true -> is_finite (s_radius s : binary_float p e) = true ->
    let c := @vsub S 3 v (s_origin s) : vec (binary_float p e) 3 in
    finite_pt c -> (i < 3)%nat -> (e <= 2 * K)%Z -> bpow radix2 K <= Rabs (fval i c) ->
    @signed_dist_sphere S v s = @sinf S /\ @dist_sphere S v s = @sinf S /\
    sphere_contains (tol_linal S eps) s v = false /\ sphere_contains (raw_linal S eps) s v = false.
Proof.
  intros p e Hp He f g h pi S eps K v s i Heps Hr c Hf Hi HK Hd.
  assert (Ho : bpow radix2 e <= rndf p e (fval i c * fval i c)).
  { pose proof (@emax_pos p e Hp He). rewrite <- (rnd_id (p := p) (e := e) (bpow radix2 e)) by (apply fmt_pow; lia). apply rnd_le.
    apply Rle_trans with (bpow radix2 (K + K)); [apply bpow_le; lia|]. rewrite bpow_plus, <- (Rabs_mult_self (fval i c)).
    apply Rmult_le_compat; try apply bpow_ge_0; exact Hd. }
  destruct (normalize_overflow f g h pi 3 c i Hf Hi Ho) as (E1 & _). fold S in E1. unfold c in E1.
  assert (Em : @ssub S (@vlength S 3 (@vsub S 3 v (s_origin s))) (s_radius s) = @sinf S).
  { rewrite E1. change (@Bminus p e Hp He mode_NE pinf (s_radius s) = pinf). destruct (s_radius s : binary_float p e) as [?|?| |? ? ? ?]; try discriminate Hr; reflexivity. }
  assert (Es : @signed_dist_sphere S v s = @sinf S) by exact Em.
  split; [exact Es|]. split; [unfold dist_sphere; rewrite Es; reflexivity|]. split.
  - unfold sphere_contains. cbn [isGreater leps tol_linal]. rewrite Em. change (negb (Bltb (eps : binary_float p e) pinf) = false).
    destruct (eps : binary_float p e) as [?|?| |[] ? ? ?]; try discriminate Heps; reflexivity.
  - unfold sphere_contains. cbn [isGreater leps raw_linal]. rewrite E1. change (negb (Bltb (s_radius s : binary_float p e) pinf) = false).
    destruct (s_radius s : binary_float p e) as [?|?| |[] ? ? ?]; try discriminate Hr; reflexivity.
Qed.
Print Assumptions C66_overflow_refuted.

(** for instance doubles: the point (2^600, 0, 0) and the sphere about 0 of radius 2^700 *)
Example C66_overflow_example : forall f g h pi, let S := B64 f g h pi in
  let z := b64_ofZ 0 in let v := mk3 (b64_pow 1 600) z z in let s := @mkSphere S (mk3 z z z) (b64_pow 1 700) in
  finite_pt (@vsub S 3 v (s_origin s) : vec b64 3) /\ (1024 <= 2 * 600)%Z /\
  bpow radix2 600 <= Rabs (fval 0 (@vsub S 3 v (s_origin s) : vec b64 3)) /\
  rdist (vreal v) (vreal (mk3 z z z)) < B2R (b64_pow 1 700) /\
  sphere_contains (raw_linal S z) s v = false.
Proof.
  intros f g h pi S z v s.
  assert (V : B2R (b64_pow 1 600) = bpow radix2 600).
  { destruct (@pow_spec 53 1024 prec53 prec_emax64 1 600 eq_refl ltac:(lia) ltac:(lia)) as [_ E]. unfold b64_pow. rewrite E. ring. }
  assert (W : B2R (b64_pow 1 700) = bpow radix2 700).
  { destruct (@pow_spec 53 1024 prec53 prec_emax64 1 700 eq_refl ltac:(lia) ltac:(lia)) as [_ E]. unfold b64_pow. rewrite E. ring. }
  assert (Ez : B2R z = 0).
  { destruct (@pow_spec 53 1024 prec53 prec_emax64 0 0 eq_refl ltac:(lia) ltac:(lia)) as [_ E]. unfold z, b64_ofZ, b64_pow. rewrite E. ring. }
  split; [intros [|[|[|i]]] Hi; try lia; vm_compute; reflexivity|]. split; [lia|]. split; [|split].
  - destruct (@sub_ok 53 1024 prec53 prec_emax64 (b64_pow 1 600) z) as [_ E].
    + vm_compute; reflexivity.
    + vm_compute; reflexivity.
    + rewrite Ez, Rminus_0_r, rnd_id by apply B2R_fmt. apply fin_lt.
    + rewrite Ez, Rminus_0_r, rnd_id in E by apply B2R_fmt.
      apply Rle_trans with (Rabs (B2R (b64_pow 1 600))); [rewrite V; apply Rle_abs|]. right. rewrite <- E. reflexivity.
  - rewrite W. replace (rdist (vreal v) (vreal (mk3 z z z))) with (bpow radix2 600); [apply bpow_lt; lia|].
    symmetry. unfold rdist, rnorm. replace (rdot _ _) with (bpow radix2 600 * bpow radix2 600); [apply sqrt_square, bpow_ge_0|].
    unfold v, vreal, mk3, rsub. cbn [vmap vmap2 rdot fst snd]. rewrite V, Ez. ring.
  - vm_compute. reflexivity.
Qed.

(** non-vacuity: doubles; the point (3, 4, 12), the sphere of radius 2 about (0, 0, 0),
    and the plane z = 1 *)
Lemma C66_reach_example : in_reach (p := 53) (e := 1024) (mk3 (b64_ofZ 3) (b64_ofZ 4) (b64_ofZ 12)) (mk3 (b64_ofZ 0) (b64_ofZ 0) (b64_ofZ 0)).
Proof.
  assert (V : forall z, (Z.abs z < 2 ^ 53)%Z -> B2R (b64_ofZ z) = IZR z /\ is_finite (b64_ofZ z) = true).
  { intros z Hz. destruct (@pow_spec 53 1024 prec53 prec_emax64 z 0 Hz ltac:(lia) ltac:(lia)) as [F E]. split; [|exact F].
    unfold b64_ofZ, b64_pow. rewrite E. cbn. ring. }
  destruct (V 3%Z eq_refl) as [V3 F3], (V 4%Z eq_refl) as [V4 F4], (V 12%Z eq_refl) as [V12 F12], (V 0%Z eq_refl) as [V0 F0].
  unfold in_reach. split; [|split].
  - intros [|[|[|i]]] Hi; try lia; assumption.
  - intros [|[|[|i]]] Hi; try lia; assumption.
  - unfold rdist. rewrite rnorm_sq. unfold vreal, mk3, rsub. cbn [vmap vmap2 rdot fst snd]. rewrite V3, V4, V12, V0.
    apply Rle_trans with (bpow radix2 8); [cbn; lra|]. apply bpow_le. lia.
Qed.
Example C66_example : forall f g h pi, let S := B64 f g h pi in
  let z := b64_ofZ 0 in let v := mk3 (b64_ofZ 3) (b64_ofZ 4) (b64_ofZ 12) in let s := @mkSphere S (mk3 z z z) (b64_ofZ 2) in
  4 * uround 53 <= 1 / 32 /\
  seqb (@signed_dist_sphere S v s) (b64_ofZ 11) = true /\ sphere_contains (raw_linal S z) s v = false /\
  sphere_contains (raw_linal S z) s (mk3 (b64_ofZ 1) z z) = true /\
  seqb (@dist_plane_point S (@plane_make S (mk3 z z (b64_ofZ 1)) (mk3 z z (b64_ofZ 3))) v) (b64_ofZ 11) = true.
Proof.
  intros f g h pi S z v s. split.
  - unfold uround. apply Rle_trans with (4 * bpow radix2 (-7)); [|cbn; lra].
    apply Rmult_le_compat_l; [lra|]. apply bpow_le. lia.
  - vm_compute. repeat split.
Qed.
