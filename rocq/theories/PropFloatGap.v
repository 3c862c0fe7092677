(** * Property theorems: distances between lines, rays and segments in floating point (C76) *)

From Coq Require Import List Arith Bool Lia Reals Lra ZArith.
From Flocq Require Import Core BinarySingleNaN.
From Verif Require Import Scalar Linal Result SpecReal VecR VecLemmas SpecIEEE SpecFloatErr SpecFloatPlane SpecFloatSkew SpecFloatGap ModelShapes ModelDistance
  ProofDistance ProofRound ProofIEEE ProofBoxIEEE ProofFloatErr ProofFloatNorm ProofFloatDist ProofFloatLine ProofFloatTransform ProofFloatPlane ProofFloatCross ProofFloatSphere ProofFloatSkew ProofFloatGap
  PropFloatTess PropFloatLine PropFloatPlane PropFloatCross PropFloatSkew.
Local Open Scope R_scope.

Section GL.
Context {p e : Z} {Hp : Prec_gt_0 p} {He : Prec_lt_emax p e}.
Notation bf := (binary_float p e).
Notation u := (uround p).
Notation eta := (uflow p e).
Notation zero := (B754_zero false : bf).
Context (fc fs fa : bf -> bf) (fpi : bf).
Let S := IEEE p e Hp He fc fs fa fpi.

Lemma gap_points (P Q : vec bf 3) (F F' : vec R 3) b1 b2 G : 1024 * u <= 1 -> finite_pt P -> finite_pt Q ->
  rdist (vreal P) F <= b1 -> rdist (vreal Q) F' <= b2 -> rdist F F' <= G -> (G + b1 + b2) * (G + b1 + b2) <= bpow radix2 (e - 4) ->
  let l := @vlength S 3 (@vsub S 3 P Q) : bf in
  fin l /\ Rabs (B2R l - rdist F F') <= (b1 + b2) + 6 * u * (G + b1 + b2) + 4 * sqrt eta.
Proof.
  intros Hu1 FP FQ H1 H2 HG HR l. pose proof (@u_pos p) as Hu. pose proof (@eta_pos p e) as Hh. change (@ProofFloatErr.eta p e) with eta in Hh.
  set (D := rdist (vreal P) (vreal Q)). set (x := rdist F F') in *. assert (D0 : 0 <= D) by apply rnorm_nonneg.
  assert (DD : Rabs (D - x) <= b1 + b2).
  { apply Rabs_le. pose proof (rdist_triangle (vreal P) F (vreal Q)) as A. pose proof (rdist_triangle F F' (vreal Q)) as B. rewrite (rdist_sym F' (vreal Q)) in B.
    pose proof (rdist_triangle F (vreal P) F') as A'. rewrite (rdist_sym F (vreal P)) in A'. pose proof (rdist_triangle (vreal P) (vreal Q) F') as B'. fold D in A, B'. fold x in A', B. lra. }
  apply Rabs_le_inv in DD.
  assert (RR : in_reach P Q). { split; [exact FP|]. split; [exact FQ|]. fold D. eapply Rle_trans; [|exact HR]. apply Rmult_le_compat; lra. }
  destruct (distance_err fc fs fa fpi 3 P Q ltac:(cbn [INR]; lra) RR) as (Fl & l0 & El). fold S in Fl, l0, El. fold l D in Fl, l0, El. split; [exact Fl|].
  change (@ProofFloatErr.eta p e) with eta in El. rewrite sqrt_mult in El by (cbn [INR]; lra). set (hh := sqrt eta) in *. assert (h0 : 0 <= hh) by apply sqrt_pos. replace (INR 3) with 3 in El by (cbn; ring).
  assert (s3 : sqrt 3 <= 2). { rewrite <- (sqrt_square 2) by lra. apply sqrt_le_1_alt. lra. }
  assert (sqrt 3 * hh <= 2 * hh) by (apply Rmult_le_compat_r; lra).
  assert (u * D <= u * (G + b1 + b2)) by (apply Rmult_le_compat_l; lra). apply Rabs_le_inv in El. apply Rabs_le. lra.
Qed.
Lemma foot_facts k G (o d o' d' : vec R 3) : skew_frame p e k G o d o' d' -> clearly_skew p d d' ->
  0 < G /\ 0 < rnorm d /\ 0 < rnorm d' /\ 0 < sine d d' <= 1 /\ 190 * u * G <= feet_bound p G d d' /\ (forall x : vec R 3, feet_bound p G d d' <= foot_point_bound p e G d d' x).
Proof.
  intros (K4 & K2 & ML & MM & MG & HW) Hsk. pose proof (@u_pos p) as Hu. pose proof (bpow_gt_0 radix2 (- k)) as k0. pose proof (@eta_pos p e) as Hh. change (@ProofFloatErr.eta p e) with eta in Hh.
  assert (LM : 0 < rnorm d * rnorm d') by (apply Rmult_lt_0_compat; lra).
  assert (s0 : 0 <= sine d d') by (unfold sine; apply Rmult_le_pos; [apply rnorm_nonneg|left; apply Rinv_0_lt_compat, LM]).
  assert (s1 : sine d d' <= 1) by (unfold sine; apply div_le; [exact LM|]; rewrite Rmult_1_l; apply rcross_le).
  unfold clearly_skew in Hsk. assert (sp : 0 < sine d d'). { destruct s0 as [s0|s0]; [exact s0|]. rewrite <- s0 in Hsk. lra. }
  set (s := sine d d') in *. split; [lra|]. split; [lra|]. split; [lra|]. split; [split; assumption|].
  assert (s2 : 0 < s * s <= 1). { split; [apply Rmult_lt_0_compat; lra|]. assert (s * s <= 1 * 1) by (apply Rmult_le_compat; lra). lra. }
  assert (s3 : 0 < s * s * s <= 1). { split; [apply Rmult_lt_0_compat; lra|]. assert (s * s * s <= 1 * 1) by (apply Rmult_le_compat; lra). lra. }
  assert (uG : 0 < u * G) by (apply Rmult_lt_0_compat; lra).
  split.
  - unfold feet_bound. fold s. apply Rmult_le_reg_r with (s * s * s); [lra|]. replace (190 * u * G / (s * s * s) * (s * s * s)) with (190 * u * G) by (field; lra).
    assert (190 * u * G * (s * s * s) <= 190 * u * G * 1) by (apply Rmult_le_compat_l; lra). lra.
  - intros x. unfold foot_point_bound. fold s. assert (0 <= G / s) by (apply Rmult_le_pos; [lra|left; apply Rinv_0_lt_compat; lra]). pose proof (rnorm_nonneg x).
    assert (0 <= u * (rnorm x + 20 * (G / s))) by (apply Rmult_le_pos; lra). lra.
Qed.
Lemma feet_exist (o d o' d' : vec R 3) : 0 < rnorm d -> 0 < rnorm d' -> 0 < sine d d' -> exists T T', feet o d o' d' T T'.
Proof.
  intros Hd Hd' Hs. assert (HC : rcross d d' <> rzero).
  { intros Q. unfold sine in Hs. rewrite Q, rnorm_rzero in Hs. unfold Rdiv in Hs. rewrite Rmult_0_l in Hs. lra. }
  destruct (line_line_gap o d o' d' HC) as (HL & q & q' & (T & ->) & (T' & ->) & HE). exists T, T'. intros x y. rewrite HE. apply HL; eexists; reflexivity.
Qed.
Lemma feet_origin (o d o' d' : vec R 3) T T' : feet o d o' d' T T' -> rdist (along o d T) (along o' d' T') <= rdist o o'.
Proof. intros HF. specialize (HF 0 0). now rewrite !along_0 in HF. Qed.
Lemma gap_total b1 b2 E x y z G : 1024 * u <= 1 -> 0 < G -> 190 * u * G <= E -> E <= b1 -> E <= b2 ->
  Rabs (x - y) <= (b1 + b2) + 6 * u * (G + b1 + b2) + 4 * sqrt eta -> Rabs (y - z) <= E -> Rabs (x - z) <= 3 * (b1 + b2) + 6 * sqrt eta.
Proof.
  intros Hu1 G0 HE H1 H2 A B. pose proof (@u_pos p) as Hu. assert (0 < u * G) by (apply Rmult_lt_0_compat; lra). pose proof (sqrt_pos eta).
  assert (u * (b1 + b2) <= 1 / 1024 * (b1 + b2)) by (apply Rmult_le_compat_r; lra). apply Rabs_le_inv in A, B. apply Rabs_le. lra.
Qed.
(** a number that is not less than zero, as the code tests it *)
Lemma ltb_zero (x : bf) : fin x -> if @Bltb p e x zero then B2R x < 0 else 0 <= B2R x.
Proof.
  intros F. rewrite Bltb_correct by (reflexivity || exact F). change (B2R zero) with 0. destruct (Rlt_bool_spec (B2R x) 0); lra.
Qed.
(** the distance of the origin of the ray from the line *)
Lemma point_line_unit (o d v : vec bf 3) : 1024 * u <= 1 -> finite_pt d -> unit_near p (vreal d) -> in_reach o v ->
  let x := @vlength S 3 (@rejection S 3 (@vsub S 3 o v) d) : bf in
  fin x /\ exists m, is_set_distance (fun q => q = vreal v) (on_line (vreal o) (vreal d)) m /\ Rabs (B2R x - m) <= 28 * u * rdist (vreal o) (vreal v) + 6 * sqrt eta.
Proof.
  intros Hu1 Fd Ud HR x. pose proof (@u_pos p) as Hu. pose proof (@eta_pos p e) as Hh. change (@ProofFloatErr.eta p e) with eta in Hh. set (dd := rdirection (vreal d)). unfold unit_near in Ud.
  assert (HN : 0 < rnorm (vreal d)) by (apply Rabs_le_inv in Ud; lra).
  assert (Hdz : vreal d <> rzero) by (intros Q; rewrite Q, rnorm_rzero in HN; lra).
  assert (Hd1 : rnorm dd = 1) by (apply rnorm_normalize, Hdz).
  assert (E : rdist (vreal d) dd <= (INR 3 + 3) * u).
  { replace (rdist (vreal d) dd) with (Rabs (rnorm (vreal d) - 1)); [replace (INR 3 + 3) with 6 by (cbn; ring); exact Ud|].
    unfold rdist. replace (rsub (vreal d) dd) with (rscale (rnorm (vreal d) - 1) dd); [rewrite rnorm_scale, Hd1; ring|].
    replace (rsub (vreal d) dd) with (rsub (rscale (rnorm (vreal d)) dd) dd); [apply eq_by_dot; vring|]. f_equal. unfold dd, rdirection. toR. rewrite rscale_scale. rewrite Rinv_r by lra. apply rscale_1. }
  destruct (rej_length_err fc fs fa fpi 3 o v d dd ltac:(lia) ltac:(cbn [INR]; lra) HR Fd Hd1 E) as (X1 & X2 & _). fold S in X1, X2. fold x in X1, X2.
  split; [exact X1|]. exists (rnorm (rrej (rsub (vreal o) (vreal v)) dd)). split.
  2:{ change (@ProofFloatErr.eta p e) with eta in X2. rewrite sqrt_mult in X2 by (cbn [INR]; lra). set (hh := sqrt eta) in *. assert (h0 : 0 <= hh) by apply sqrt_pos. replace (INR 3) with 3 in X2 by (cbn; ring).
      assert (s3 : sqrt 3 <= 2). { rewrite <- (sqrt_square 2) by lra. apply sqrt_le_1_alt. lra. }
      assert (sqrt 3 * hh <= 2 * hh) by (apply Rmult_le_compat_r; lra). apply Rabs_le_inv in X2. apply Rabs_le. lra. }
  assert (Hddz : dd <> rzero) by (intros Q; rewrite Q, rnorm_rzero in Hd1; lra).
  pose proof (@dist_point_line_spec 0 3 (vreal v) (@mkLine (RS 0) 3 (vreal o) dd) Hddz) as [D1 (q1 & q2 & Q1 & Q2 & Q3)]. cbn [l_origin l_dir] in *.
  assert (Ev : dist_point_line (vreal v) (@mkLine (RS 0) 3 (vreal o) dd) = rnorm (rrej (rsub (vreal o) (vreal v)) dd)).
  { unfold dist_point_line. toR. reflexivity. }
  rewrite Ev in *. split; [intros q q' H1 H2; apply D1; [exact H1|apply on_line_direction; [exact HN|exact H2]]|].
  exists q1, q2. split; [exact Q1|]. split; [apply (on_line_direction 3 _ _ _ HN); exact Q2|exact Q3].
Qed.
Lemma set_distance_same (A B : vec R 3 -> Prop) m m' : is_set_distance A B m -> is_set_distance A B m' -> m = m'.
Proof. intros (L & a & b & HA & HB & HE) (L' & a' & b' & HA' & HB' & HE'). specialize (L _ _ HA' HB'). specialize (L' _ _ HA HB). lra. Qed.
End GL.

(** ** A line and a ray that are not nearly parallel: the distance is found up to
    roundings, wherever the closest point of the ray's line is *)
Theorem C76_line_ray :
  forall (p e : Z) (Hp : Prec_gt_0 p) (He : Prec_lt_emax p e) f g h pi, let S := IEEE p e Hp He f g h pi in
  forall (L : Linal S) (t : R), LinalF L t -> 1024 * uround p <= 1 ->
  forall (k : Z) (G : R) (o d o' d' : vec (binary_float p e) 3),
    finite_pt o -> finite_pt d -> finite_pt o' -> finite_pt d' -> skew_frame p e k G (vreal o) (vreal d) (vreal o') (vreal d') ->
    unit_near p (vreal d) -> rnorm (vreal o) <= bpow radix2 (e - 3) -> rnorm (vreal o') <= bpow radix2 (e - 3) ->
    clearly_skew p (vreal d) (vreal d') -> t + denom_bound p (vreal d) (vreal d') < gram (vreal d) (vreal d') ->
    gap_room p e G (vreal o) (vreal d) (vreal o') (vreal d') ->
    let x := @dist_line_ray S L (@mkLine S 3 o d) (@mkRay S 3 o' d') : binary_float p e in
    is_finite x = true /\
    exists m, is_set_distance (on_line (vreal o) (vreal d)) (on_ray (vreal o') (vreal d')) m /\
      Rabs (B2R x - m) <= gap_bound p e G (vreal o) (vreal d) (vreal o') (vreal d').
Proof.
  intros p e Hp He f g h pi S L t HL Hu1 k G o d o' d' Fo Fd Fo' Fd' HS Ud No No' Hsk HD HR x. pose proof (@u_pos p) as Hu.
  pose proof (rdist_self_le 3 (uround p) (vreal d) ltac:(lra)) as Hd. pose proof (rdist_self_le 3 (uround p) (vreal d') ltac:(lra)) as Hd'.
  destruct (foot_facts k G (vreal o) (vreal d) (vreal o') (vreal d') HS Hsk) as (G0 & d0 & d0' & (s0 & _) & HE & HB).
  destruct (feet_exist (vreal o) (vreal d) (vreal o') (vreal d') d0 d0' s0) as (T & T' & HF).
  destruct (cp_den f g h pi Hu1 k G o o' d d' (vreal d) (vreal d') Hd Hd' Fo Fo' Fd Fd' HS) as (den & nt & ns & Fn & En & Er & Ep).
  destruct (Ep Hsk T T' HF) as (F1 & B1 & C1 & F2 & B2 & C2).
  pose proof (HB (vreal o)) as HB1. pose proof (HB (vreal o')) as HB2. unfold gap_room in HR. cbv zeta in HR. unfold gap_bound.
  assert (HG : rdist (vreal o) (vreal o') <= G) by apply HS.
  set (E := feet_bound p G (vreal d) (vreal d')) in *. set (b1 := foot_point_bound p e G (vreal d) (vreal d') (vreal o)) in *. set (b2 := foot_point_bound p e G (vreal d) (vreal d') (vreal o')) in *.
  assert (uG : 0 < uround p * G) by (apply Rmult_lt_0_compat; lra).
  set (xt := Bdiv mode_NE nt den) in *. set (y := Bdiv mode_NE ns den) in *.
  set (P := @vadd S 3 o (@vscale S 3 xt d) : vec (binary_float p e) 3). set (Q := @vadd S 3 o' (@vscale S 3 y d') : vec (binary_float p e) 3).
  assert (Ux : x = if @Bltb p e y (B754_zero false) then @vlength S 3 (@rejection S 3 (@vsub S 3 o o') d) else @vlength S 3 (@vsub S 3 P Q)).
  { unfold x, dist_line_ray. cbn [l_origin l_dir r_origin r_dir]. fold S in Er. rewrite (Er L (leps L)).
    destruct (isZero L (leps L) den) eqn:Z0; [|reflexivity]. exfalso. apply (lf_zero_1 _ _ HL _ Fn) in Z0. apply Rabs_le_inv in Z0, En. lra. }
  clearbody x. subst x.
  destruct (line_ray_split (vreal o) (vreal d) (vreal o') (vreal d') T T' HF) as (m & m0 & M1 & M2 & M3 & M4 & M5 & M6).
  { intros K. rewrite K, rnorm_rzero in d0. lra. }
  set (delta := rdist (along (vreal o) (vreal d) T) (along (vreal o') (vreal d') T')) in *.
  assert (Hdel : delta <= G) by (eapply Rle_trans; [apply (feet_origin _ _ _ _ _ _ HF)|exact HG]).
  assert (X2 := B2). rewrite <- (Rabs_pos_eq (rnorm (vreal d'))), <- Rabs_mult in X2 by lra. apply Rabs_le_inv in X2.
  pose proof (ltb_zero y F2) as Hy. destruct (@Bltb p e y (B754_zero false)).
  - (* the ray's origin *)
    assert (RR : in_reach o o'). { split; [exact Fo|]. split; [exact Fo'|]. eapply Rle_trans; [|exact HR]. pose proof (rnorm_nonneg (rsub (vreal o) (vreal o'))) as N0. change (0 <= rdist (vreal o) (vreal o')) in N0. apply Rmult_le_compat; lra. }
    destruct (point_line_unit f g h pi o d o' Hu1 Fd Ud RR) as (Fx & m0' & M2' & Ex). fold S in Fx, Ex. rewrite (set_distance_same _ _ _ _ M2' M2) in Ex. split; [exact Fx|].
    exists m. split; [exact M1|].
    assert (MM : Rabs (m0 - m) <= E).
    { destruct (Rle_lt_dec 0 T') as [K|K]; [|rewrite (M6 K), Rminus_diag_eq, Rabs_R0 by reflexivity; lra].
      rewrite (M5 K). rewrite (Rabs_pos_eq T') in M3 by exact K. assert (B2R y * rnorm (vreal d') <= 0 * rnorm (vreal d')) by (apply Rmult_le_compat_r; lra). apply Rabs_le. lra. }
    assert (uround p * rdist (vreal o) (vreal o') <= uround p * G) by (apply Rmult_le_compat_l; lra). pose proof (sqrt_pos (uflow p e)).
    apply Rabs_le_inv in Ex, MM. apply Rabs_le. lra.
  - (* the closest points *)
    destruct (cp_point f g h pi Hu1 k G o o' (vreal d) (vreal d') HS o d (vreal d) xt T Hd Fo Fd Hsk No F1 B1 C1) as (FP & DP).
    destruct (cp_point f g h pi Hu1 k G o o' (vreal d) (vreal d') HS o' d' (vreal d') y T' Hd' Fo' Fd' Hsk No' F2 B2 C2) as (FQ & DQ). fold S in FP, DP, FQ, DQ.
    destruct (gap_points f g h pi P Q _ _ b1 b2 G Hu1 FP FQ DP DQ Hdel HR) as (Fx & Ex). fold S in Fx, Ex. split; [exact Fx|]. exists m. split; [exact M1|].
    eapply (gap_total b1 b2 E _ delta _ G Hu1 G0 HE HB1 HB2 Ex).
    destruct (Rle_lt_dec 0 T') as [K|K]; [rewrite (M5 K), Rminus_diag_eq, Rabs_R0 by reflexivity; lra|].
    rewrite (M6 K). rewrite (Rabs_left T') in M3 by exact K. assert (0 * rnorm (vreal d') <= B2R y * rnorm (vreal d')) by (apply Rmult_le_compat_r; lra). apply Rabs_le. lra.
Qed.
Print Assumptions C76_line_ray.

(** ** Two lines that are not nearly parallel: up to roundings the number is the distance
    or its opposite *)
Theorem C76_line_line :
  forall (p e : Z) (Hp : Prec_gt_0 p) (He : Prec_lt_emax p e) f g h pi, let S := IEEE p e Hp He f g h pi in
  forall (L : Linal S) (t : R), LinalF L t -> 1024 * uround p <= 1 -> (2 * p <= e)%Z ->
  forall (dbg : bool) (o d o' d' : vec (binary_float p e) 3) (x : binary_float p e),
    finite_pt d -> finite_pt d' -> unit_near p (vreal d) -> unit_near p (vreal d') -> in_reach o o' ->
    clearly_skew p (vreal d) (vreal d') -> t + 24 * uround p < sine (vreal d) (vreal d') ->
    @dist_line_line S L dbg (@mkLine S 3 o d) (@mkLine S 3 o' d') = Ok x ->
    is_finite x = true /\
    exists m, is_set_distance (on_line (vreal o) (vreal d)) (on_line (vreal o') (vreal d')) m /\
      Rabs (Rabs (B2R x) - m) <= line_gap_bound p e (vreal o) (vreal d) (vreal o') (vreal d').
Proof.
  intros p e Hp He f g h pi S L t HL Hu1 Hpe dbg o d o' d' x Fd Fd' Ud Ud' HR Hsk Hs Hx. pose proof (@u_pos p) as Hu. pose proof (lf_slack _ _ HL) as Ht0.
  destruct (ll_length f g h pi Hu1 Hpe d d' Fd Fd' Ud Ud' Hsk) as (Fl & _ & El). fold S in Fl, El.
  destruct (ll_result f g h pi Hu1 Hpe o o' d d' Fd Fd' Ud Ud' HR Hsk) as (Fx & Ex). fold S in Fx, Ex.
  set (c := @cross S d d' : vec (binary_float p e) 3) in *. set (l := @vlength S 3 c : binary_float p e) in *.
  assert (Ux : x = Bdiv mode_NE (@dot S 3 (@vsub S 3 o o') c) l).
  { unfold dist_line_line in Hx. cbn [l_origin l_dir] in Hx. destruct (geo_assert dbg _); try discriminate Hx. cbn [bind] in Hx. destruct (geo_assert dbg _); try discriminate Hx. cbn [bind] in Hx.
    change (@vlength S 3 (@cross S d d')) with l in Hx. destruct (isZero L (leps L) l) eqn:Z0.
    - exfalso. apply (lf_zero_1 _ _ HL _ Fl) in Z0. apply Rabs_le_inv in Z0, El. lra.
    - apply Ok_inj in Hx. symmetry. exact Hx. }
  subst x. split; [exact Fx|]. eexists. split; [apply line_line_gap|].
  - intros Q. unfold sine in Hs. rewrite Q, rnorm_rzero in Hs. unfold Rdiv in Hs. rewrite Rmult_0_l in Hs. lra.
  - set (C := rcross (vreal d) (vreal d')) in *. assert (NC : 0 < rnorm C).
    { apply nonzero_norm. intros Q. unfold sine in Hs. fold C in Hs. rewrite Q, rnorm_rzero in Hs. unfold Rdiv in Hs. rewrite Rmult_0_l in Hs. lra. }
    replace (Rabs (rdot (rsub (vreal o) (vreal o')) C) / rnorm C) with (Rabs (rdot (rsub (vreal o) (vreal o')) C / rnorm C)) by (rewrite div_abs by exact NC; reflexivity).
    eapply Rle_trans; [apply Rabs_triang_inv2|]. exact Ex.
Qed.
Print Assumptions C76_line_line.

(** ** A segment and a point: when the distance found is finite, it is never smaller than
    the distance, up to roundings (it can be larger, see C14) *)
Theorem C76_segment_point :
  forall (p e : Z) (Hp : Prec_gt_0 p) (He : Prec_lt_emax p e) f g h pi, let S := IEEE p e Hp He f g h pi in
  1024 * uround p <= 1 -> forall (n : nat) (a b v : vec (binary_float p e) n), (1 <= n <= 3)%nat ->
    let x := @dist_segment_point S n (@mkSegment S n a b) v : binary_float p e in is_finite x = true ->
    finite_pt a /\ finite_pt v /\
    exists q, on_segment (vreal a) (vreal b) q /\
      rdist q (vreal v) <= B2R x + length_bound p e (B2R x) + point_bound p e (vreal a) (rsub (vreal b) (vreal a)) 1.
Proof.
  intros p e Hp He f g h pi S Hu1 n a b v Hn x Fx. pose proof (@u_pos p) as Hu.
  unfold x, dist_segment_point in *. cbn [g_source g_target] in *. set (dir := @vsub S n b a : vec (binary_float p e) n) in *.
  set (par := sdiv _ _) in Fx |- *. set (pp := std_min (std_max par s0) s1) in *.
  set (P := @vadd S n a (@vscale S n pp dir) : vec (binary_float p e) n) in *. clear x. set (x := @vlength S n (@vsub S n P v) : binary_float p e) in *.
  destruct (distance_fin_n f g h pi n P v ltac:(lia) ltac:(lra) Fx) as (FP & Fv & D). fold S x in D.
  destruct (point_err f g h pi n a dir pp ltac:(lra) FP ltac:(lia)) as (Fa & Fdir & Fpp & _).
  split; [exact Fa|]. split; [exact Fv|].
  assert (Fb : finite_pt b). { intros i Hi. specialize (Fdir i Hi). unfold dir, vsub in Fdir. rewrite (vnth_vmap2 (B754_zero false : binary_float p e) (B754_zero false : binary_float p e)) in Fdir by exact Hi. apply sub_fin in Fdir as (Q & _ & _). exact Q. }
  pose proof (sub_err f g h pi n b a Fb Fa Fdir) as Ed. fold S dir in Ed.
  destruct (point_near f g h pi n a dir (rsub (vreal b) (vreal a)) pp ltac:(lra) ltac:(lia) Ed FP) as (_ & _ & DP). fold S P in DP.
  pose proof (@one_spec p e Hp He) as [Fo Eo]. change (ieee_pow p e Hp He 1 0) with (@s1 S) in Fo, Eo.
  assert (R01 : 0 <= B2R pp <= 1).
  { assert (Q : forall z : binary_float p e, @std_max S z (B754_zero false : S) = z /\ (is_finite z = true -> 0 <= B2R z) \/ @std_max S z (B754_zero false : S) = (B754_zero false : S)).
    { intros z. unfold std_max. change (@sltb S z (B754_zero false)) with (@Bltb p e z (B754_zero false)). destruct (Bltb z (B754_zero false)) eqn:K; [right; reflexivity|left].
      split; [reflexivity|]. intros Fz. pose proof (ltb_zero z Fz) as W. rewrite K in W. exact W. }
    unfold pp, std_min in *. change (@s0 S) with (B754_zero false : S) in *. set (mx := std_max par (B754_zero false : S)) in *.
    change (@sltb S (@s1 S) mx) with (@Bltb p e (@s1 S) mx) in *. destruct (Bltb (@s1 S : binary_float p e) mx) eqn:K; [rewrite Eo; cbn; lra|].
    rewrite Bltb_correct in K by assumption. rewrite Eo in K. destruct (Rlt_bool_spec 1 (B2R (mx : binary_float p e))); [discriminate K|].
    split; [|assumption]. destruct (Q par) as [(Q1 & Q2)|Q1]; fold mx in Q1; rewrite Q1 in Fpp |- *; [apply Q2; exact Fpp|cbn; lra]. }
  exists (along (vreal a) (rsub (vreal b) (vreal a)) (B2R pp)). split; [exists (B2R pp); split; [exact R01|reflexivity]|].
  eapply Rle_trans; [apply (rdist_triangle _ (vreal P))|]. rewrite (rdist_sym _ (vreal P)). unfold length_bound.
  assert (PB : point_bound p e (vreal a) (rsub (vreal b) (vreal a)) (B2R pp) <= point_bound p e (vreal a) (rsub (vreal b) (vreal a)) 1).
  { unfold point_bound. rewrite Rabs_R1, (Rabs_pos_eq (B2R pp)) by lra. pose proof (rnorm_nonneg (rsub (vreal b) (vreal a))) as N0.
    assert (B2R pp * rnorm (rsub (vreal b) (vreal a)) <= 1 * rnorm (rsub (vreal b) (vreal a))) by (apply Rmult_le_compat_r; lra).
    apply Rplus_le_compat_r, Rmult_le_compat_l; lra. }
  lra.
Qed.
Print Assumptions C76_segment_point.

(** ** A segment and a ray, when the code finds the parameters of the closest points of
    their lines: a finite result is never smaller than the distance, up to roundings (it
    can be larger, see C17) *)
Theorem C76_segment_ray_upper :
  forall (p e : Z) (Hp : Prec_gt_0 p) (He : Prec_lt_emax p e) f g h pi, let S := IEEE p e Hp He f g h pi in
  forall (L : Linal S), 1024 * uround p <= 1 ->
  forall (a b o v : vec (binary_float p e) 3) (x : binary_float p e),
    @closest_params S L (leps L) a (@vsub S 3 b a) o v <> None ->
    @dist_segment_ray S L (@mkSegment S 3 a b) (@mkRay S 3 o v) = Ok x -> is_finite x = true ->
    exists q T', on_segment (vreal a) (vreal b) q /\ 0 <= T' /\
      rdist q (along (vreal o) (vreal v) T') <=
        B2R x + length_bound p e (B2R x) + point_bound p e (vreal a) (rsub (vreal b) (vreal a)) 1 + point_bound p e (vreal o) (vreal v) T'.
Proof.
  intros p e Hp He f g h pi S L Hu1 a b o v x HN Hx Fx. pose proof (@u_pos p) as Hu. pose proof (@eta_pos p e) as Hh. change (@ProofFloatErr.eta p e) with (uflow p e) in Hh.
  unfold dist_segment_ray in Hx. cbn [g_source g_target r_origin r_dir] in Hx. destruct (closest_params L (leps L) a (@vsub S 3 b a) o v) as [[t s]|]; [|now elim HN]. clear HN.
  apply Ok_inj in Hx. subst x. pose proof (@one_spec p e Hp He) as [Fo Eo]. change (ieee_pow p e Hp He 1 0) with (@s1 S) in Fo, Eo.
  set (P := @calc_segment_point S 3 (@mkSegment S 3 a b) t : vec (binary_float p e) 3) in *. set (Q := @calc_ray_point S 3 (@mkRay S 3 o v) s : vec (binary_float p e) 3) in *.
  set (x := @vlength S 3 (@vsub S 3 P Q) : binary_float p e) in *. change (B2R (@vlength S 3 (@vsub S 3 P Q) : binary_float p e)) with (B2R x).
  destruct (distance_fin f g h pi P Q ltac:(lra) Fx) as (FP & FQ & D). fold S x in D.
  assert (PB0 : forall (c w : vec R 3) y, 0 <= point_bound p e c w y).
  { intros c w y. unfold point_bound. pose proof (rnorm_nonneg c). pose proof (Rmult_le_pos _ _ (Rabs_pos y) (rnorm_nonneg w)). assert (0 <= uround p * (rnorm c + 5 * (Rabs y * rnorm w))) by (apply Rmult_le_pos; lra). lra. }
  assert (HP : exists q, on_segment (vreal a) (vreal b) q /\ rdist q (vreal P) <= point_bound p e (vreal a) (rsub (vreal b) (vreal a)) 1).
  { unfold P, calc_segment_point in FP |- *. cbn [g_source g_target] in FP |- *. change (@sltb S t (@s0 S)) with (@Bltb p e t (B754_zero false)) in *. change (@sltb S (@s1 S) t) with (@Bltb p e (@s1 S) t) in *.
    destruct (Bltb t (B754_zero false)) eqn:K0.
    { exists (vreal a). split; [exists 0; split; [lra|symmetry; apply along_0]|]. rewrite rdist_self. apply PB0. }
    destruct (Bltb (@s1 S : binary_float p e) t) eqn:K1.
    { exists (vreal b). split; [exists 1; split; [lra|]|rewrite rdist_self; apply PB0]. unfold along. rewrite rscale_1. symmetry. apply radd_rsub. }
    set (dir := @vsub S 3 b a : vec (binary_float p e) 3) in *. destruct (point_err f g h pi 3 a dir t ltac:(lra) FP ltac:(lia)) as (Fa & Fdir & Ft & _).
    assert (Fb : finite_pt b). { intros i Hi. specialize (Fdir i Hi). unfold dir, vsub in Fdir. rewrite (vnth_vmap2 (B754_zero false : binary_float p e) (B754_zero false : binary_float p e)) in Fdir by exact Hi. apply sub_fin in Fdir as (W & _ & _). exact W. }
    pose proof (sub_err f g h pi 3 b a Fb Fa Fdir) as Ed. fold S dir in Ed.
    destruct (point_near f g h pi 3 a dir (rsub (vreal b) (vreal a)) t ltac:(lra) ltac:(lia) Ed FP) as (_ & _ & DP). fold S in DP.
    pose proof (ltb_zero t Ft) as R0. rewrite K0 in R0. rewrite Bltb_correct in K1 by assumption. rewrite Eo in K1. destruct (Rlt_bool_spec 1 (B2R t)) as [|R1]; [discriminate K1|].
    exists (along (vreal a) (rsub (vreal b) (vreal a)) (B2R t)). split; [exists (B2R t); split; [split; assumption|reflexivity]|]. rewrite rdist_sym. eapply Rle_trans; [exact DP|].
    unfold point_bound. rewrite Rabs_R1, (Rabs_pos_eq (B2R t)) by exact R0. pose proof (rnorm_nonneg (rsub (vreal b) (vreal a))) as N0.
    assert (B2R t * rnorm (rsub (vreal b) (vreal a)) <= 1 * rnorm (rsub (vreal b) (vreal a))) by (apply Rmult_le_compat_r; assumption).
    apply Rplus_le_compat_r, Rmult_le_compat_l; lra. }
  assert (HQ : exists T', 0 <= T' /\ rdist (vreal Q) (along (vreal o) (vreal v) T') <= point_bound p e (vreal o) (vreal v) T').
  { unfold Q, calc_ray_point in FQ |- *. cbn [r_origin r_dir] in FQ |- *. change (@sltb S s (@s0 S)) with (@Bltb p e s (B754_zero false)) in *.
    destruct (Bltb s (B754_zero false)) eqn:K0.
    { exists 0. split; [lra|]. rewrite along_0, rdist_self. apply PB0. }
    destruct (point_near f g h pi 3 o v (vreal v) s ltac:(lra) ltac:(lia) (rdist_self_le 3 (uround p) (vreal v) ltac:(lra)) FQ) as (Fs & _ & DQ). fold S in DQ.
    pose proof (ltb_zero s Fs) as R0. rewrite K0 in R0. exists (B2R s). split; [exact R0|exact DQ]. }
  destruct HP as (q & Hq & Dq), HQ as (T' & HT & DT). exists q, T'. split; [exact Hq|]. split; [exact HT|].
  eapply Rle_trans; [apply (rdist_triangle _ (vreal P))|]. eapply Rle_trans; [apply Rplus_le_compat_l, (rdist_triangle _ (vreal Q))|]. unfold length_bound. lra.
Qed.
Print Assumptions C76_segment_ray_upper.

(** a segment and a ray whose lines are closest inside both: the distance is found up to
    roundings *)
Theorem C76_segment_ray_inside :
  forall (p e : Z) (Hp : Prec_gt_0 p) (He : Prec_lt_emax p e) f g h pi, let S := IEEE p e Hp He f g h pi in
  forall (L : Linal S) (t : R), LinalF L t -> 1024 * uround p <= 1 ->
  forall (k : Z) (G T T' : R) (a b o v : vec (binary_float p e) 3),
    finite_pt a -> finite_pt b -> finite_pt o -> finite_pt v ->
    let d := rsub (vreal b) (vreal a) in let d' := vreal v in
    skew_frame p e k G (vreal a) d (vreal o) d' -> rnorm (vreal a) <= bpow radix2 (e - 3) -> rnorm (vreal o) <= bpow radix2 (e - 3) ->
    clearly_skew p d d' -> t + denom_bound p d d' < gram d d' -> gap_room p e G (vreal a) d (vreal o) d' ->
    feet (vreal a) d (vreal o) d' T T' -> 0 <= T <= 1 -> 0 <= T' ->
    exists x : binary_float p e, @dist_segment_ray S L (@mkSegment S 3 a b) (@mkRay S 3 o v) = Ok x /\ is_finite x = true /\
      exists m, is_set_distance (on_segment (vreal a) (vreal b)) (on_ray (vreal o) d') m /\ Rabs (B2R x - m) <= gap_bound p e G (vreal a) d (vreal o) d'.
Proof.
  intros p e Hp He f g h pi S L t HL Hu1 k G T T' a b o w Fa Fb Fo' Fw d d' HS Na No Hsk HD HR HF HT HT'. pose proof (@u_pos p) as Hu.
  assert (HS' := HS). destruct HS as (K4 & K2 & ML & MM & MG & HW). pose proof (bpow_gt_0 radix2 (- k)) as Hk0.
  assert (k0 : (0 <= k)%Z) by (assert (Q : bpow radix2 (- k) <= bpow radix2 k) by lra; apply le_bpow in Q; lia).
  assert (BK : bpow radix2 k <= bpow radix2 (e - 2)) by (apply bpow_le; lia).
  pose proof (sub_finite_near f g h pi 3 b a ltac:(lra) Fb Fa ltac:(change (rdist (vreal b) (vreal a)) with (rnorm d); lra)) as Fv. fold S in Fv.
  pose proof (sub_err f g h pi 3 b a Fb Fa Fv) as Hv. fold S in Hv. pose proof (rdist_self_le 3 (uround p) d' ltac:(lra)) as Hw.
  set (v := @vsub S 3 b a : vec (binary_float p e) 3) in *.
  change (rdist (vreal v) d <= uround p * rnorm d) in Hv.
  destruct (foot_facts k G (vreal a) d (vreal o) d' HS' Hsk) as (G0 & d0 & d0' & _ & HE & HB).
  destruct (cp_den f g h pi Hu1 k G a o v w d d' Hv Hw Fa Fo' Fv Fw HS') as (den & nt & ns & Fn & En & Er & Ep). fold S in Er.
  destruct (Ep Hsk T T' HF) as (F1 & B1 & C1 & F2 & B2 & C2).
  pose proof (HB (vreal a)) as HB1. pose proof (HB (vreal o)) as HB2. unfold gap_room in HR. cbv zeta in HR. unfold gap_bound.
  set (E := feet_bound p G d d') in *. set (b1 := foot_point_bound p e G d d' (vreal a)) in *. set (b2 := foot_point_bound p e G d d' (vreal o)) in *.
  pose proof (@one_spec p e Hp He) as [Fo Eo]. change (ieee_pow p e Hp He 1 0) with (@s1 S) in Fo, Eo.
  set (x := Bdiv mode_NE nt den) in *. set (y := Bdiv mode_NE ns den) in *.
  assert (X1 := B1). assert (X2 := B2). rewrite <- (Rabs_pos_eq (rnorm d)), <- Rabs_mult in X1 by lra. rewrite <- (Rabs_pos_eq (rnorm d')), <- Rabs_mult in X2 by lra. apply Rabs_le_inv in X1, X2.
  set (P := @calc_segment_point S 3 (@mkSegment S 3 a b) x : vec (binary_float p e) 3). set (Q := @calc_ray_point S 3 (@mkRay S 3 o w) y : vec (binary_float p e) 3).
  assert (HP : finite_pt P /\ rdist (vreal P) (along (vreal a) d T) <= b1).
  { unfold P, calc_segment_point. cbn [g_source g_target]. change (@sltb S x (@s0 S)) with (@Bltb p e x (B754_zero false)) in *. change (@sltb S (@s1 S) x) with (@Bltb p e (@s1 S) x) in *.
    pose proof (ltb_zero x F1) as R0. destruct (Bltb x (B754_zero false)).
    { split; [exact Fa|]. assert (EQ : rdist (vreal a) (along (vreal a) d T) = Rabs (0 - T) * rnorm d) by (rewrite <- (along_0 (vreal a) d) at 1; apply along_shift). rewrite EQ.
      rewrite Rabs_left1 by lra. assert (B2R x * rnorm d <= 0 * rnorm d) by (apply Rmult_le_compat_r; lra). lra. }
    rewrite Bltb_correct by assumption. rewrite Eo. destruct (Rlt_bool_spec 1 (B2R x)) as [R1|R1].
    { split; [exact Fb|]. assert (EQ : rdist (vreal b) (along (vreal a) d T) = Rabs (1 - T) * rnorm d).
      { replace (vreal b) with (along (vreal a) d 1) at 1; [apply along_shift|]. unfold along, d. rewrite rscale_1. apply radd_rsub. }
      rewrite EQ. rewrite Rabs_pos_eq by lra. assert (1 * rnorm d <= B2R x * rnorm d) by (apply Rmult_le_compat_r; lra). lra. }
    exact (cp_point f g h pi Hu1 k G a o d d' HS' a v d x T Hv Fa Fv Hsk Na F1 B1 C1). }
  assert (HQ : finite_pt Q /\ rdist (vreal Q) (along (vreal o) d' T') <= b2).
  { unfold Q, calc_ray_point. cbn [r_origin r_dir]. change (@sltb S y (@s0 S)) with (@Bltb p e y (B754_zero false)) in *.
    pose proof (ltb_zero y F2) as R0. destruct (Bltb y (B754_zero false)).
    { split; [exact Fo'|]. assert (EQ : rdist (vreal o) (along (vreal o) d' T') = Rabs (0 - T') * rnorm d') by (rewrite <- (along_0 (vreal o) d') at 1; apply along_shift). rewrite EQ.
      rewrite Rabs_left1 by lra. assert (B2R y * rnorm d' <= 0 * rnorm d') by (apply Rmult_le_compat_r; lra). lra. }
    exact (cp_point f g h pi Hu1 k G a o d d' HS' o w d' y T' Hw Fo' Fw Hsk No F2 B2 C2). }
  destruct HP as (FP & DP), HQ as (FQ & DQ).
  assert (Hdel : rdist (along (vreal a) d T) (along (vreal o) d' T') <= G) by (eapply Rle_trans; [apply (feet_origin _ _ _ _ _ _ HF)|exact HW]).
  destruct (gap_points f g h pi P Q _ _ b1 b2 G Hu1 FP FQ DP DQ Hdel HR) as (Fx & Ex). fold S in Fx, Ex.
  exists (@vlength S 3 (@vsub S 3 P Q)). split.
  { unfold dist_segment_ray. cbn [g_source g_target r_origin r_dir]. change (@vsub S 3 b a) with v. rewrite (Er L (leps L)).
    destruct (isZero L (leps L) den) eqn:Z0; [|reflexivity]. exfalso. apply (lf_zero_1 _ _ HL _ Fn) in Z0. apply Rabs_le_inv in Z0, En. lra. }
  split; [exact Fx|]. exists (rdist (along (vreal a) d T) (along (vreal o) d' T')). split.
  - split; [intros q q' (y1 & _ & ->) (y2 & _ & ->); apply HF|]. exists (along (vreal a) d T), (along (vreal o) d' T'). split; [exists T; split; [exact HT|reflexivity]|]. split; [exists T'; split; [exact HT'|reflexivity]|reflexivity].
  - eapply (gap_total b1 b2 E _ _ _ G Hu1 G0 HE HB1 HB2 Ex). rewrite Rminus_diag_eq, Rabs_R0 by reflexivity. assert (0 < uround p * G) by (apply Rmult_lt_0_compat; lra). lra.
Qed.
Print Assumptions C76_segment_ray_inside.

(** ** The distance of two lines can be negative, in doubles as with exact numbers (C15) *)
Theorem C76_line_line_refuted :
  forall f g h pi, let S := B64 f g h pi in let z := b64_ofZ 0 in let L := raw_linal S z in
  let o := mk3 z z z in let d := mk3 (b64_ofZ 1) z z in let o' := mk3 (b64_ofZ 1) (b64_ofZ (-2)) (b64_ofZ 1) in let d' := mk3 z (b64_ofZ 1) z in
  is_set_distance (on_line (vreal o) (vreal d)) (on_line (vreal o') (vreal d')) 1 /\
  match @dist_line_line S L true (@mkLine S 3 o d) (@mkLine S 3 o' d') with Ok x => Bltb (x : b64) z | _ => false end = true.
Proof.
  intros f g h pi S z L o d o' d'. split; [|vm_compute; reflexivity].
  destruct (b64_small 0 eq_refl) as (F0 & E0), (b64_small 1 eq_refl) as (F1 & E1), (b64_small (-2) eq_refl) as (F2 & E2). fold z in F0, E0.
  assert (Eo : vreal o = mk3 0 0 0) by (change (vreal o) with (mk3 (B2R z) (B2R z) (B2R z)); now rewrite E0).
  assert (Ed : vreal d = mk3 1 0 0) by (change (vreal d) with (mk3 (B2R (b64_ofZ 1)) (B2R z) (B2R z)); now rewrite E0, E1).
  assert (Eo' : vreal o' = mk3 1 (-2) 1) by (change (vreal o') with (mk3 (B2R (b64_ofZ 1)) (B2R (b64_ofZ (-2))) (B2R (b64_ofZ 1))); now rewrite E1, E2).
  assert (Ed' : vreal d' = mk3 0 1 0) by (change (vreal d') with (mk3 (B2R z) (B2R (b64_ofZ 1)) (B2R z)); now rewrite E0, E1).
  rewrite Eo, Ed, Eo', Ed'.
  assert (CR : rcross (mk3 1 0 0) (mk3 0 1 0) = mk3 0 0 1) by (unfold rcross, mk3; cbn; repeat (apply f_equal2; [ring|]); reflexivity).
  assert (N1 : rnorm (mk3 0 0 1) = 1). { unfold rnorm. replace (rdot _ _) with (1 * 1) by (unfold rdot, mk3; cbn; ring). apply sqrt_square. lra. }
  pose proof (line_line_gap (mk3 0 0 0) (mk3 1 0 0) (mk3 1 (-2) 1) (mk3 0 1 0)) as K. rewrite CR, N1 in K.
  replace (Rabs (rdot (rsub (mk3 0 0 0) (mk3 1 (-2) 1)) (mk3 0 0 1)) / 1) with 1 in K.
  2:{ replace (rdot _ _) with (-1) by (unfold rdot, rsub, mk3; cbn; ring). rewrite Rabs_left by lra. lra. }
  apply K. intros Q. apply (f_equal rnorm) in Q. rewrite N1, rnorm_rzero in Q. lra.
Qed.
Print Assumptions C76_line_line_refuted.

(** ** The hypotheses can be met, in doubles: two perpendicular directions, a distance of one *)
Example C76_example :
  forall f g h pi, let S := B64 f g h pi in let z := b64_ofZ 0 in let L := raw_linal S z in
  let o := mk3 z z z in let d := mk3 (b64_ofZ 1) z z in let o' := mk3 (b64_ofZ 1) (b64_ofZ (-2)) (b64_ofZ 1) in let d' := mk3 z (b64_ofZ 1) z in
  LinalF L 0 /\ 1024 * uround 53 <= 1 /\ (2 * 53 <= 1024)%Z /\
  finite_pt o /\ finite_pt d /\ finite_pt o' /\ finite_pt d' /\ rsub (vreal d) (vreal o) = vreal d /\
  skew_frame 53 1024 2 4 (vreal o) (vreal d) (vreal o') (vreal d') /\ unit_near 53 (vreal d) /\ unit_near 53 (vreal d') /\
  rnorm (vreal o) <= bpow radix2 (1024 - 3) /\ rnorm (vreal o') <= bpow radix2 (1024 - 3) /\ in_reach o o' /\
  clearly_skew 53 (vreal d) (vreal d') /\ 0 + denom_bound 53 (vreal d) (vreal d') < gram (vreal d) (vreal d') /\ 0 + 24 * uround 53 < sine (vreal d) (vreal d') /\
  gap_room 53 1024 4 (vreal o) (vreal d) (vreal o') (vreal d') /\ feet (vreal o) (vreal d) (vreal o') (vreal d') 1 2 /\
  is_finite (@dist_segment_point S 3 (@mkSegment S 3 o d) o' : b64) = true /\
  is_some (@closest_params S L (leps L) o (@vsub S 3 d o) o' d') = true /\
  match @dist_segment_ray S L (@mkSegment S 3 o d) (@mkRay S 3 o' d') with Ok x => is_finite (x : b64) | _ => false end = true.
Proof.
  intros f g h pi S z L o d o' d'.
  destruct (b64_small 0 eq_refl) as (F0 & E0), (b64_small 1 eq_refl) as (F1 & E1), (b64_small (-2) eq_refl) as (F2 & E2). fold z in F0, E0.
  assert (Hu : 0 < uround 53 <= 1 / 1048576 * (1 / 1048576)). { split; [apply bpow_gt_0|]. apply Rle_trans with (bpow radix2 (-40)); [apply bpow_le; lia|cbn; lra]. }
  assert (Hh : 0 < uflow 53 1024 <= 1 / 1024) by (split; [apply bpow_gt_0|apply Rle_trans with (bpow radix2 (-10)); [apply bpow_le; lia|cbn; lra]]).
  assert (HB : 64 <= bpow radix2 (1024 - 4)) by (change 64 with (bpow radix2 6); apply bpow_le; lia).
  assert (HB3 : 64 <= bpow radix2 (1024 - 3)) by (change 64 with (bpow radix2 6); apply bpow_le; lia).
  split; [exact (raw_linal_F f g h pi z)|]. split; [lra|]. split; [lia|].
  assert (Fo : finite_pt o) by (intros [|[|[|i]]] Hi; try lia; assumption). assert (Fd : finite_pt d) by (intros [|[|[|i]]] Hi; try lia; assumption).
  assert (Fo' : finite_pt o') by (intros [|[|[|i]]] Hi; try lia; assumption). assert (Fd' : finite_pt d') by (intros [|[|[|i]]] Hi; try lia; assumption).
  split; [exact Fo|]. split; [exact Fd|]. split; [exact Fo'|]. split; [exact Fd'|].
  assert (Eo : vreal o = mk3 0 0 0) by (change (vreal o) with (mk3 (B2R z) (B2R z) (B2R z)); now rewrite E0).
  assert (Ed : vreal d = mk3 1 0 0) by (change (vreal d) with (mk3 (B2R (b64_ofZ 1)) (B2R z) (B2R z)); now rewrite E0, E1).
  assert (Eo' : vreal o' = mk3 1 (-2) 1) by (change (vreal o') with (mk3 (B2R (b64_ofZ 1)) (B2R (b64_ofZ (-2))) (B2R (b64_ofZ 1))); now rewrite E1, E2).
  assert (Ed' : vreal d' = mk3 0 1 0) by (change (vreal d') with (mk3 (B2R z) (B2R (b64_ofZ 1)) (B2R z)); now rewrite E0, E1).
  unfold in_reach. rewrite Eo, Ed, Eo', Ed'.
  assert (N1 : rnorm (mk3 1 0 0) = 1). { unfold rnorm. replace (rdot _ _) with (1 * 1) by (unfold rdot, mk3; cbn; ring). apply sqrt_square. lra. }
  assert (N2 : rnorm (mk3 0 1 0) = 1). { unfold rnorm. replace (rdot _ _) with (1 * 1) by (unfold rdot, mk3; cbn; ring). apply sqrt_square. lra. }
  assert (N3 : rnorm (mk3 0 0 0) = 0). { unfold rnorm. replace (rdot _ _) with (0 * 0) by (unfold rdot, mk3; cbn; ring). apply sqrt_square. lra. }
  assert (N4 : 0 <= rnorm (mk3 1 (-2) 1) <= 3). { split; [apply rnorm_nonneg|]. unfold rnorm. replace (rdot _ _) with 6 by (unfold rdot, mk3; cbn; ring). rewrite <- (sqrt_square 3) by lra. apply sqrt_le_1_alt. lra. }
  assert (D4 : 0 <= rdist (mk3 0 0 0) (mk3 1 (-2) 1) <= 3). { split; [apply rnorm_nonneg|]. unfold rdist, rnorm. replace (rdot _ _) with 6 by (unfold rdot, rsub, mk3; cbn; ring). rewrite <- (sqrt_square 3) by lra. apply sqrt_le_1_alt. lra. }
  assert (SN : sine (mk3 1 0 0) (mk3 0 1 0) = 1).
  { unfold sine. rewrite N1, N2. unfold rnorm. replace (rdot _ _) with (1 * 1) by (unfold rdot, rcross, mk3; cbn; ring). rewrite sqrt_square by lra. lra. }
  split; [unfold rsub, mk3; cbn [vmap2 fst snd]; repeat (apply f_equal2; [ring|]); reflexivity|].
  split. { unfold skew_frame. rewrite N1, N2. change (bpow radix2 (- (2))) with (/ 4). change (bpow radix2 2) with 4. repeat split; try lia; lra. }
  split; [unfold unit_near; rewrite N1, Rminus_diag_eq, Rabs_R0 by reflexivity; lra|]. split; [unfold unit_near; rewrite N2, Rminus_diag_eq, Rabs_R0 by reflexivity; lra|].
  split; [rewrite N3; lra|]. split; [lra|].
  split. { split; [exact Fo|]. split; [exact Fo'|]. eapply Rle_trans; [|exact HB]. apply Rle_trans with (3 * 3); [apply Rmult_le_compat; lra|lra]. }
  split; [unfold clearly_skew; rewrite SN; lra|].
  split. { unfold denom_bound. replace (gram _ _) with 1 by (unfold gram, rdot, mk3; cbn; ring). replace (rdot (mk3 1 0 0) (mk3 1 0 0)) with 1 by (unfold rdot, mk3; cbn; ring). replace (rdot (mk3 0 1 0) (mk3 0 1 0)) with 1 by (unfold rdot, mk3; cbn; ring). lra. }
  split; [rewrite SN; lra|].
  assert (FB : feet_bound 53 4 (mk3 1 0 0) (mk3 0 1 0) = 760 * uround 53) by (unfold feet_bound; rewrite SN; field).
  split. { unfold gap_room, foot_point_bound. rewrite FB, SN, N3. replace (4 / 1) with 4 by field. assert (0 <= uround 53 * (rnorm (mk3 1 (-2) 1) + 20 * 4) <= uround 53 * 83) by (split; [apply Rmult_le_pos|apply Rmult_le_compat_l]; lra).
    apply Rle_trans with (8 * 8); [apply Rmult_le_compat; lra|lra]. }
  split. { intros x y. unfold rdist, rnorm. apply sqrt_le_1_alt. unfold along, rdot, radd, rsub, rscale, mk3. cbn. pose proof (Rle_0_sqr (x - 1)) as A. pose proof (Rle_0_sqr (y - 2)) as B. unfold Rsqr in A, B. lra. }
  split; [vm_compute; reflexivity|]. split; [vm_compute; reflexivity|]. vm_compute. reflexivity.
Qed.
