(** * Property theorems: distances of points to lines and rays in floating point (C67) *)

From Coq Require Import List Arith Bool Lia Reals Lra ZArith.
From Flocq Require Import Core BinarySingleNaN.
From Verif Require Import Scalar Linal Result SpecReal VecR VecLemmas SpecIEEE SpecFloatErr ModelShapes ModelDistance ProofDistance ProofRound ProofIEEE ProofBoxIEEE ProofFloatErr ProofFloatNorm ProofFloatDist ProofFloatLine PropFloatNorm PropFloatDist.
Local Open Scope R_scope.

(** the given direction and its unit vector span the same line and ray *)
Lemma along_direction n (o d : vec R n) t : along o (rdirection d) t = along o d (t * / rnorm d).
Proof. unfold along, rdirection. now rewrite rscale_scale. Qed.
Lemma on_line_direction n (o d : vec R n) q : 0 < rnorm d -> (on_line o (rdirection d) q <-> on_line o d q).
Proof.
  intros Hd. split; intros [t ->]; [exists (t * / rnorm d); apply along_direction|]. exists (t * rnorm d). rewrite along_direction. f_equal. field. lra.
Qed.
Lemma on_ray_direction n (o d : vec R n) q : 0 < rnorm d -> (on_ray o (rdirection d) q <-> on_ray o d q).
Proof.
  intros Hd. split; intros (t & Ht & ->).
  - exists (t * / rnorm d). split; [apply Rmult_le_pos; [exact Ht|left; apply Rinv_0_lt_compat; exact Hd]|apply along_direction].
  - exists (t * rnorm d). split; [nra|]. rewrite along_direction. f_equal. field. lra.
Qed.

(** ** C67: the computed distance of a point to the line (the ray) through [o] in
    direction [d] is the exact one up to a few rounding errors of the distance to
    [o], and up to the tolerance for rays; every IEEE format and dimension. *)
Theorem C67_point_line :
  forall (p e : Z) (Hp : Prec_gt_0 p) (He : Prec_lt_emax p e) f g h pi, let S := IEEE p e Hp He f g h pi in
  forall (n : nat) (k K : Z) (v o d : vec (binary_float p e) n),
    (INR n + 3) * uround p <= 1 / 32 -> moderate k K d -> in_reach o v ->
    let x := @dist_point_line S n v (@line_make S n o d) : binary_float p e in
    is_finite x = true /\
    exists m, is_set_distance (fun q => q = vreal v) (on_line (vreal o) (vreal d)) m /\
      Rabs (B2R x - m) <= (5 * INR n + 13) * uround p * rdist (vreal o) (vreal v) + 3 * sqrt (INR n * uflow p e).
Proof.
  intros p e Hp He f g h pi S n k K v o d Hn Hm HR x. pose proof (@u_pos p) as Hu.
  assert (Hn' : (INR n + 1) * uround p <= 1 / 32) by (pose proof (pos_INR n); lra).
  assert (Hn1 : (1 <= n)%nat) by (destruct Hm as (_ & _ & _ & _ & i & Hi & _); lia).
  destruct (normalize_err f g h pi n d k K Hn' Hm) as [F E]. destruct (length_err f g h pi n d k K Hn' Hm) as (HN & _).
  set (dd := rdirection (vreal d)) in *.
  assert (Hdz : vreal d <> rzero) by (intros Q; rewrite Q, rnorm_rzero in HN; lra).
  assert (Hd1 : rnorm dd = 1) by (apply rnorm_normalize, Hdz).
  destruct (rej_length_err f g h pi n o v (@normalize S n d) dd Hn1 Hn HR F Hd1 E) as (X1 & X2 & _).
  split; [exact X1|]. exists (rnorm (rrej (rsub (vreal o) (vreal v)) dd)). split; [|exact X2].
  assert (Hddz : dd <> rzero) by (intros Q; rewrite Q, rnorm_rzero in Hd1; lra).
  pose proof (@dist_point_line_spec 0 n (vreal v) (@mkLine (RS 0) n (vreal o) dd) Hddz) as [D1 (q1 & q2 & Q1 & Q2 & Q3)]. cbn [l_origin l_dir] in *.
  assert (Ev : dist_point_line (vreal v) (@mkLine (RS 0) n (vreal o) dd) = rnorm (rrej (rsub (vreal o) (vreal v)) dd)).
  { unfold dist_point_line. toR. reflexivity. }
  rewrite Ev in *. split; [intros q q' H1 H2; apply D1; [exact H1|apply on_line_direction; [exact HN|exact H2]]|].
  exists q1, q2. split; [exact Q1|]. split; [apply (on_line_direction n _ _ _ HN); exact Q2|exact Q3].
Qed.
Print Assumptions C67_point_line.

Theorem C67_point_ray :
  forall (p e : Z) (Hp : Prec_gt_0 p) (He : Prec_lt_emax p e) f g h pi, let S := IEEE p e Hp He f g h pi in
  forall (L : Linal S) (t : R), LinalF L t ->
  forall (dbg : bool) (n : nat) (k K : Z) (v o d : vec (binary_float p e) n) (r : ray S n),
    (INR n + 3) * uround p <= 1 / 32 -> moderate k K d -> in_reach v o ->
    @ray_make S L dbg n o d = Ok r ->
    let x := @dist_ray_point S L n r v : binary_float p e in
    is_finite x = true /\
    exists m, is_set_distance (fun q => q = vreal v) (on_ray (vreal o) (vreal d)) m /\
      Rabs (B2R x - m) <= (8 * INR n + 19) * uround p * rdist (vreal v) (vreal o) + t + 4 * sqrt (INR n * uflow p e).
Proof.
  intros p e Hp He f g h pi S L t HL dbg n k K v o d r Hn Hm HR E0 x. pose proof (@u_pos p) as Hu. pose proof (lf_slack _ _ HL) as Ht0.
  assert (Er : r = @mkRay S n o (@normalize S n d)).
  { unfold ray_make in E0. destruct (geo_assert dbg _); try discriminate. now apply Ok_inj in E0. }
  assert (Hn' : (INR n + 1) * uround p <= 1 / 32) by (pose proof (pos_INR n); lra).
  assert (Hn1 : (1 <= n)%nat) by (destruct Hm as (_ & _ & _ & _ & i & Hi & _); lia). assert (Hin : 1 <= INR n) by (apply (le_INR 1); lia).
  destruct (normalize_err f g h pi n d k K Hn' Hm) as [F E]. destruct (length_err f g h pi n d k K Hn' Hm) as (HN & _).
  set (dd := rdirection (vreal d)) in *.
  assert (Hdz : vreal d <> rzero) by (intros Q; rewrite Q, rnorm_rzero in HN; lra).
  assert (Hd1 : rnorm dd = 1) by (apply rnorm_normalize, Hdz).
  assert (Hddz : dd <> rzero) by (intros Q; rewrite Q, rnorm_rzero in Hd1; lra).
  destruct (rej_length_err f g h pi n v o (@normalize S n d) dd Hn1 Hn HR F Hd1 E) as (X1 & X2 & T1 & T2). fold S in X1, X2, T1, T2.
  destruct (@dist_ray_point_spec 0 (raw_linal (RS 0) 0) (raw_linal_R 0 0 ltac:(lra)) n (vreal v) (@mkRay (RS 0) n (vreal o) dd) Hddz) as (m & Hset & _). cbn [r_origin r_dir] in Hset.
  destruct (ray_distance_bounds n (vreal o) dd (vreal v) m Hd1 Hset) as ([M1 M2] & M3 & M4).
  assert (Hset' : is_set_distance (fun q => q = vreal v) (on_ray (vreal o) (vreal d)) m).
  { destruct Hset as [D1 (q1 & q2 & Q1 & Q2 & Q3)]. split; [intros q q' H1 H2; apply D1; [exact H1|apply on_ray_direction; [exact HN|exact H2]]|].
    exists q1, q2. split; [exact Q1|]. split; [apply (on_ray_direction n _ _ _ HN); exact Q2|exact Q3]. }
  assert (HR' : in_reach o v) by (destruct HR as (A1 & A2 & A3); split; [exact A2|split; [exact A1|rewrite rdist_sym; exact A3]]).
  destruct (distance_err f g h pi n o v Hn' HR') as (Y1 & _ & Y2). fold S in Y1, Y2. rewrite (rdist_sym (vreal o)) in Y2.
  set (c := @vsub S n v o : vec (binary_float p e) n) in *. set (w := @normalize S n d : vec (binary_float p e) n) in *.
  set (q := @dot S n c w : binary_float p e) in *. set (a := rsub (vreal v) (vreal o)) in *. set (A := rdist (vreal v) (vreal o)) in *.
  change (rnorm a) with A in *. assert (HA0 : 0 <= A) by apply rdist_nonneg.
  pose proof (eta_small (p := p) (e := e) n Hn) as Hh. change (@eta p e) with (uflow p e) in *.
  set (h' := INR n * uflow p e) in *. assert (Hh0 : 0 < h') by (apply Rmult_lt_0_compat; [lra|apply bpow_gt_0]).
  assert (Hu1 : uround p <= 1 / 128) by nra.
  assert (Hsh : 42 / 10 * h' <= sqrt h').
  { pose proof (sqrt_pos h') as Q0. pose proof (sqrt_def h' ltac:(lra)) as Q1. assert (Q2 : sqrt h' <= 1 / 40).
    { rewrite <- (sqrt_square (1 / 40)) by lra. apply sqrt_le_1_alt. lra. }
    assert (Q3 : sqrt h' * sqrt h' <= 1 / 40 * sqrt h') by (apply Rmult_le_compat_r; lra). lra. }
  set (uA := uround p * A) in *. assert (HuA : 0 <= uA) by (apply Rmult_le_pos; lra). set (nA := INR n * uA). assert (HnA : uA <= nA) by (unfold nA; nra).
  replace ((5 * INR n + 13) * uround p * A) with (5 * nA + 13 * uA) in X2 by (unfold nA, uA; ring).
  replace ((21 / 10 * INR n + 52 / 10) * uround p * A) with (21 / 10 * nA + 52 / 10 * uA) in T2 by (unfold nA, uA; ring).
  replace ((INR n + 3) * uround p * A) with (nA + 3 * uA) in Y2 by (unfold nA, uA; ring).
  replace ((8 * INR n + 19) * uround p * A) with (8 * nA + 19 * uA) by (unfold nA, uA; ring).
  pose proof (sqrt_pos h') as Hs0. apply Rabs_le_inv in X2, T2, Y2. clearbody uA nA.
  assert (Ez : B2R (@s0 S : binary_float p e) = 0) by reflexivity.
  assert (Ex : x = (if isGreater L (leps L) q s0 then @vlength S n (@rejection S n c w) else @vlength S n (@vsub S n o v))) by (unfold x; rewrite Er; reflexivity).
  rewrite Ex. destruct (isGreater L (leps L) q s0) eqn:G.
  - apply (lf_greater_1 _ _ HL q (B754_zero false) T1 eq_refl) in G. change (B2R (B754_zero false : binary_float p e)) with 0 in G.
    split; [exact X1|]. exists m. split; [exact Hset'|].
    assert (Hmx : Rmax 0 (- rdot a dd) <= 21 / 10 * nA + 52 / 10 * uA + 11 / 10 * h') by (apply Rmax_lub; lra).
    apply Rabs_le. lra.
  - assert (G' : B2R q <= t).
    { destruct (Rle_dec (B2R q) t) as [Q|Q]; [exact Q|]. 
      assert (G2 : isGreater L (leps L) q (B754_zero false : binary_float p e) = true).
      { apply (lf_greater_0 _ _ HL q (B754_zero false) T1 eq_refl). change (B2R (B754_zero false : binary_float p e)) with 0. lra. }
      exfalso. change (isGreater L (leps L) q (B754_zero false : binary_float p e) = false) in G. congruence. }
    split; [exact Y1|]. exists m. split; [exact Hset'|].
    assert (Hmx : Rmax 0 (rdot a dd) <= t + (21 / 10 * nA + 52 / 10 * uA + 11 / 10 * h')) by (apply Rmax_lub; lra).
    apply Rabs_le. lra.
Qed.
Print Assumptions C67_point_ray.

(** Far from the origin it fails: the point (m, m, 0), [m] the greatest double, is
    on the line through 0 in direction (1, 1, 0), but the distance is NaN. *)
Theorem C67_overflow_refuted :
  forall f g h pi, let S := B64 f g h pi in
  let z := b64_ofZ 0 in let d := mk3 (b64_ofZ 1) (b64_ofZ 1) z in
  exists v : vec b64 3, finite_pt v /\ on_line (vreal (mk3 z z z)) (vreal d) (vreal v) /\ moderate (e := 1024) 0 0 d /\
    is_nan (@dist_point_line S 3 v (@line_make S 3 (mk3 z z z) d) : b64) = true.
Proof.
  intros f g h pi S z d.
  assert (V : forall z, (Z.abs z < 2 ^ 53)%Z -> B2R (b64_ofZ z) = IZR z /\ is_finite (b64_ofZ z) = true).
  { intros y Hy. destruct (@pow_spec 53 1024 prec53 prec_emax64 y 0 Hy ltac:(lia) ltac:(lia)) as [F E]. split; [|exact F].
    unfold b64_ofZ, b64_pow. rewrite E. cbn. ring. }
  destruct (V 1%Z eq_refl) as [V1 F1], (V 0%Z eq_refl) as [V0 F0]. fold z in V0, F0.
  set (m := b64_pow (2 ^ 53 - 1) 971).
  assert (Fm : is_finite m = true) by (vm_compute; reflexivity).
  exists (mk3 m m z). split; [intros [|[|[|i]]] Hi; try lia; assumption|]. split; [|split].
  - exists (B2R m). unfold along, vreal, mk3, d, radd, rscale. cbn [vmap vmap2 fst snd mk3]. rewrite V0, V1. repeat f_equal; ring.
  - unfold moderate. split; [|split; [lia|split; [|split]]].
    + intros [|[|[|i]]] Hi; try lia; assumption.
    + apply Rle_trans with (bpow radix2 10); [cbn; lra|]. apply bpow_le. lia.
    + intros [|[|[|i]]] Hi; try lia; unfold fval, d; cbn [vnth mk3 fst snd]; rewrite ?V1, ?V0; cbn; apply Rabs_le; lra.
    + exists 0%nat. split; [lia|]. unfold fval, d; cbn [vnth mk3 fst snd]. rewrite V1. cbn. rewrite Rabs_pos_eq; lra.
  - vm_compute. reflexivity.
Qed.
Print Assumptions C67_overflow_refuted.

(** non-vacuity: doubles; line and ray through 0 in direction (3, 4, 12); the point
    and direction are those of [C65_moderate_example] and [C66_reach_example] *)
Example C67_example : forall f g h pi, let S := B64 f g h pi in
  let z := b64_ofZ 0 in let o := mk3 z z z in let d := mk3 (b64_ofZ 3) (b64_ofZ 4) (b64_ofZ 12) in
  (INR 3 + 3) * uround 53 <= 1 / 32 /\ moderate (e := 1024) 0 4 d /\ in_reach (p := 53) (e := 1024) d o /\
  (exists r, @ray_make S (raw_linal S z) true 3 o d = Ok r) /\
  seqb (@dist_point_line S 3 (mk3 (b64_ofZ 3) (b64_ofZ 4) z) (@line_make S 3 o (mk3 z z (b64_ofZ 1)))) (b64_ofZ 5) = true /\
  seqb (@dist_ray_point S (raw_linal S z) 3 (@mkRay S 3 o (mk3 z z (b64_ofZ 1))) (mk3 (b64_ofZ 3) (b64_ofZ 4) (b64_ofZ (-12)))) (b64_ofZ 13) = true.
Proof.
  intros f g h pi S z o d. split.
  - unfold uround. apply Rle_trans with ((INR 3 + 3) * bpow radix2 (-8)); [|cbn; lra].
    apply Rmult_le_compat_l; [cbn; lra|]. apply bpow_le. lia.
  - split; [apply C65_moderate_example|]. split; [apply C66_reach_example|]. split.
    + exists (@mkRay S 3 o (@normalize S 3 d)). unfold ray_make.
      assert (E : sltb (leps (raw_linal S z)) (@vlength S 3 d) = true) by (vm_compute; reflexivity). rewrite E. reflexivity.
    + vm_compute. repeat split.
Qed.
