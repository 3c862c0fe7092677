(** * Property theorems: queries of cones and cylinders in floating point (C84) *)

From Coq Require Import List Arith Bool Lia Reals Lra ZArith.
From Flocq Require Import Core BinarySingleNaN.
From Verif Require Import Scalar Linal Result SpecReal VecR VecLemmas SpecIEEE SpecFloatErr SpecFloatTess SpecFloatCone ModelShapes
  ProofRound ProofIEEE ProofFloatErr ProofFloatNorm ProofFloatTess ProofFloatSphere PropFloatNorm PropFloatTess ProofFloatCone.
Local Open Scope R_scope.

(** ** C84: height, slant height and opening angle of a cone, and height of a
    cylinder, are those of the exact shape up to a few rounding errors, for every
    IEEE format: the height is the distance of peak and base, the slant height the
    distance of the peak to every point of the base circle, half the opening angle
    has tangent radius / height.  The components of the axis and the radius are
    moderate: squares neither overflow nor vanish. *)
Theorem C84_cone :
  forall (p e : Z) (Hp : Prec_gt_0 p) (He : Prec_lt_emax p e) f g h pi, let S := IEEE p e Hp He f g h pi in
  forall (d : R) (k K : Z) (mid peak : vec (binary_float p e) 3) (r : binary_float p e),
    128 * uround p <= 1 -> atan_accurate d h -> 0 <= d <= 1 / 4 ->
    finite_pt mid -> finite_pt peak -> is_finite r = true -> 0 <= B2R r <= bpow radix2 K ->
    moderate k K (@vsub S 3 peak mid : vec (binary_float p e) 3) -> (10 - e <= 2 * k)%Z -> (2 * K + 5 <= e)%Z ->
    let c := @cone_make S mid peak r in let H := rdist (vreal peak) (vreal mid) in
    let height := @cone_height S c : binary_float p e in
    let slant := @cone_slant_height S c : binary_float p e in
    let angle := @cone_opening_angle S c : binary_float p e in
    (is_finite height = true /\ Rabs (B2R height - H) <= 6 * uround p * H) /\
    (is_finite slant = true /\
     forall q, rdist q (vreal mid) = B2R r -> rdot (rsub q (vreal mid)) (rsub (vreal peak) (vreal mid)) = 0 ->
       Rabs (B2R slant - rdist (vreal peak) q) <= 9 * uround p * rdist (vreal peak) q) /\
    (is_finite angle = true /\
     forall a, 0 <= a < PI -> tan (a / 2) = B2R r / H ->
       Rabs (B2R angle - a) <= (8 * uround p + 2 * d) * a + 6 * uflow p e).
Proof.
  intros p e Hp He f g h pi S d k K mid peak r Hu Ha Hd Fm Fp Fr Hr Hm Hk HK c H height slant angle.
  destruct (height_range f g h pi k K mid peak Hu Fm Fp Hm) as (F1 & H0 & E1 & _).
  destruct (slant_err f g h pi k K mid peak r Hu Fm Fp Hm Hk HK Fr Hr) as (F2 & E2).
  destruct (angle_err f g h pi d k K mid peak r Hu Fm Fp Hm Hk HK Fr Hr Ha Hd) as (F3 & E3).
  split; [split; [exact F1|exact E1]|]. split; [split; [exact F2|]|split; [exact F3|]].
  - intros q Hq Ho.
    assert (D : rdist (vreal peak) q = sqrt (B2R r * B2R r + H * H)).
    { apply sq_eq; [apply rdist_nonneg|apply sqrt_pos|]. rewrite sqrt_sqrt by nra. rewrite <- Hq. unfold H. rewrite !rdist_sq.
      replace (rsub (vreal peak) q) with (rsub (rsub (vreal peak) (vreal mid)) (rsub q (vreal mid))) by (apply eq_by_dot; vring).
      set (u := rsub (vreal peak) (vreal mid)) in *. set (w := rsub q (vreal mid)) in *. vdot. rewrite (rdot_comm u w), Ho. ring. }
    rewrite D. exact E2.
  - intros a Hr' Ht.
    assert (Ea : a = 2 * atan (B2R r / H)). { rewrite <- Ht, atan_tan by lra. field. }
    rewrite Ea. exact E3.
Qed.
Print Assumptions C84_cone.

Theorem C84_cylinder_height :
  forall (p e : Z) (Hp : Prec_gt_0 p) (He : Prec_lt_emax p e) f g h pi, let S := IEEE p e Hp He f g h pi in
  forall (k K : Z) (src tgt : vec (binary_float p e) 3) (r : binary_float p e),
    128 * uround p <= 1 -> finite_pt src -> finite_pt tgt ->
    moderate k K (@vsub S 3 tgt src : vec (binary_float p e) 3) ->
    let height := @cylinder_height S (@mkCylinder S (@mkSegment S 3 src tgt) r) : binary_float p e in
    let H := rdist (vreal tgt) (vreal src) in
    is_finite height = true /\ Rabs (B2R height - H) <= 6 * uround p * H.
Proof.
  intros p e Hp He f g h pi S k K src tgt r Hu Fs Ft Hm height H.
  destruct (height_range f g h pi k K src tgt Hu Fs Ft Hm) as (F1 & H0 & E1 & _). split; [exact F1|exact E1].
Qed.
Print Assumptions C84_cylinder_height.

(** A large radius: the slant height is infinite although the exact one is not, if
    the square of the radius overflows. *)
Theorem C84_overflow_refuted :
  forall (p e : Z) (Hp : Prec_gt_0 p) (He : Prec_lt_emax p e) f g h pi, let S := IEEE p e Hp He f g h pi in
  forall (K : Z) (mid peak : vec (binary_float p e) 3) (r : binary_float p e),
    is_finite (@cone_height S (@cone_make S mid peak r) : binary_float p e) = true -> is_finite r = true ->
    (e <= 2 * K)%Z -> bpow radix2 K <= B2R r ->
    (@cone_slant_height S (@cone_make S mid peak r) : binary_float p e) = B754_infinity false.
Proof.
  intros p e Hp He f g h pi S K mid peak r Fh Fr HK Hr.
  set (t := @cone_height S (@cone_make S mid peak r) : binary_float p e) in *.
  change (@Bsqrt p e Hp He mode_NE (@Bplus p e Hp He mode_NE (@Bmult p e Hp He mode_NE r r) (@Bmult p e Hp He mode_NE t t)) = B754_infinity false).
  assert (Ho : bpow radix2 e <= rndf p e (B2R r * B2R r)).
  { pose proof (@emax_pos p e Hp He). rewrite <- (rnd_id (p := p) (e := e) (bpow radix2 e)) by (apply fmt_pow; lia). apply rnd_le.
    apply Rle_trans with (bpow radix2 (K + K)); [apply bpow_le; lia|]. rewrite bpow_plus. pose proof (bpow_ge_0 radix2 K).
    apply Rmult_le_compat; assumption. }
  destruct (square_spec (Hp := Hp) (He := He) r Fr) as [(E & _)|(F & E & _)].
  - rewrite E. destruct (square_spec (Hp := Hp) (He := He) t Fh) as [(-> & _)|(F2 & _)]; [reflexivity|].
    destruct (@Bmult p e Hp He mode_NE t t); try discriminate F2; reflexivity.
  - exfalso. pose proof (fin_lt (@Bmult p e Hp He mode_NE r r)) as L. rewrite E in L. apply Rabs_lt_inv in L. lra.
Qed.
Print Assumptions C84_overflow_refuted.

(** non-vacuity: a correctly rounded arc tangent; the cone with base (1, 2, 3), peak
    (4, 6, 15) and radius 5, whose heights are 13 and sqrt 194; a cone of radius 2^600 *)
Lemma rounded_atan p e (Hp : Prec_gt_0 p) (He : Prec_lt_emax p e) : (2 < p)%Z ->
  atan_accurate (uround p) (fun x : binary_float p e => bround p e Hp He (atan (B2R x))).
Proof.
  intros H2 x _. pose proof (@u_pos p) as Hu. pose proof (@eta_u p e Hp He H2) as Ee. pose proof (@pow_e p e Hp He H2) as Hpe.
  assert (u8 : uround p <= 1 / 8).
  { replace (1 / 8) with (bpow radix2 (-3)) by (cbn; field). apply bpow_le. lia. }
  pose proof (@rnd_near p e Hp (atan (B2R x))) as N. pose proof (atan_bound (B2R x)) as B. pose proof PI_4.
  assert (Ha : Rabs (atan (B2R x)) <= 2) by (apply Rabs_le; lra).
  destruct (bround_spec p e Hp He (atan (B2R x))) as (F & E).
  - replace (rndf p e (atan (B2R x))) with (atan (B2R x) + (rndf p e (atan (B2R x)) - atan (B2R x))) by ring. eapply Rle_lt_trans; [apply Rabs_triang|].
    assert (uround p * Rabs (atan (B2R x)) <= 1 / 8 * 2) by (apply Rmult_le_compat; try apply Rabs_pos; lra). lra.
  - split; [exact F|]. rewrite E. exact N.
Qed.
Definition catan (x : b64) : b64 := bround 53 1024 prec53 prec_emax64 (atan (B2R x)).
Example C84_example : forall f g pi, let S := B64 f g catan pi in
  let mid := mk3 (b64_ofZ 1) (b64_ofZ 2) (b64_ofZ 3) in let peak := mk3 (b64_ofZ 4) (b64_ofZ 6) (b64_ofZ 15) in
  128 * uround 53 <= 1 /\ atan_accurate (uround 53) catan /\ 0 <= uround 53 <= 1 / 4 /\ finite_pt mid /\ finite_pt peak /\
  is_finite (b64_ofZ 5) = true /\ 0 <= B2R (b64_ofZ 5) <= bpow radix2 4 /\
  moderate 0 4 (@vsub S 3 peak mid : vec b64 3) /\
  seqb (@cone_height S (@cone_make S mid peak (b64_ofZ 5))) (b64_ofZ 13) = true /\
  seqb (@cone_slant_height S (@cone_make S mid peak (b64_ofZ 5))) (@ssqrt S (b64_ofZ 194)) = true /\
  (1024 <= 2 * 600)%Z /\ bpow radix2 600 <= B2R (b64_pow 1 600) /\
  (@cone_slant_height S (@cone_make S mid peak (b64_pow 1 600)) : b64) = B754_infinity false.
Proof.
  intros f g pi S mid peak. pose proof (@u_pos 53) as U.
  assert (U1 : 128 * uround 53 <= 1).
  { unfold uround. change 128 with (bpow radix2 7). rewrite <- bpow_plus. change 1 with (bpow radix2 0). apply bpow_le. lia. }
  split; [exact U1|]. split; [apply rounded_atan; lia|]. split; [lra|].
  assert (V : forall z, (Z.abs z < 2 ^ 53)%Z -> is_finite (b64_ofZ z) = true) by (intros z Hz; apply b64_small; exact Hz).
  split; [intros [|[|[|i]]] Hi; try lia; apply V; reflexivity|]. split; [intros [|[|[|i]]] Hi; try lia; apply V; reflexivity|].
  split; [apply V; reflexivity|]. destruct (b64_small 5 ltac:(lia)) as (_ & ->). split; [cbn; lra|].
  split.
  { assert (W : forall x y z, (Z.abs z < 2 ^ 53)%Z -> Beqb (@Bminus 53 1024 prec53 prec_emax64 mode_NE (b64_ofZ x) (b64_ofZ y)) (b64_ofZ z) = true ->
      let s := @Bminus 53 1024 prec53 prec_emax64 mode_NE (b64_ofZ x) (b64_ofZ y) in is_finite s = true /\ B2R s = IZR z).
    { intros x y z Hz E. destruct (b64_small z Hz) as (F & <-). apply eqb_B2R; assumption. }
    destruct (W 4 1 3 ltac:(lia) ltac:(vm_compute; reflexivity))%Z as (Fa & Ea). destruct (W 6 2 4 ltac:(lia) ltac:(vm_compute; reflexivity))%Z as (Fb & Eb).
    destruct (W 15 3 12 ltac:(lia) ltac:(vm_compute; reflexivity))%Z as (Fc & Ec).
    split; [intros [|[|[|i]]] Hi; [exact Fa|exact Fb|exact Fc|lia]|]. split; [lia|]. split; [|split].
    - apply Rle_trans with (bpow radix2 10); [cbn; lra|]. apply bpow_le. lia.
    - intros [|[|[|i]]] Hi; [| | |lia].
      + change (Rabs (B2R (@Bminus 53 1024 prec53 prec_emax64 mode_NE (b64_ofZ 4) (b64_ofZ 1))) <= bpow radix2 4). rewrite Ea. cbn. apply Rabs_le. lra.
      + change (Rabs (B2R (@Bminus 53 1024 prec53 prec_emax64 mode_NE (b64_ofZ 6) (b64_ofZ 2))) <= bpow radix2 4). rewrite Eb. cbn. apply Rabs_le. lra.
      + change (Rabs (B2R (@Bminus 53 1024 prec53 prec_emax64 mode_NE (b64_ofZ 15) (b64_ofZ 3))) <= bpow radix2 4). rewrite Ec. cbn. apply Rabs_le. lra.
    - exists 0%nat. split; [lia|]. change (bpow radix2 0 <= Rabs (B2R (@Bminus 53 1024 prec53 prec_emax64 mode_NE (b64_ofZ 4) (b64_ofZ 1)))). rewrite Ea. cbn. rewrite Rabs_pos_eq; lra. }
  split; [vm_compute; reflexivity|]. split; [vm_compute; reflexivity|]. split; [lia|]. split.
  - destruct (@pow_spec 53 1024 prec53 prec_emax64 1 600 ltac:(lia) ltac:(lia) ltac:(lia)) as (_ & E). unfold b64_pow. rewrite E. lra.
  - apply (C84_overflow_refuted 53 1024 prec53 prec_emax64 f g catan pi 600).
    + vm_compute. reflexivity.
    + apply (@pow_spec 53 1024 prec53 prec_emax64 1 600); lia.
    + lia.
    + destruct (@pow_spec 53 1024 prec53 prec_emax64 1 600 ltac:(lia) ltac:(lia) ltac:(lia)) as (_ & E). unfold b64_pow. rewrite E. lra.
Qed.
