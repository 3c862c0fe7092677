(** * Solving for line parameters in the plane, in floating point *)

From Coq Require Import List Bool Arith Lia ZArith Reals Lra Psatz.
From Flocq Require Import Core BinarySingleNaN.
From Verif Require Import Scalar Linal Result SpecReal VecR VecLemmas ModelShapes ModelIntersect
  SpecIEEE SpecFloatErr SpecFloatPlane ProofRound ProofIEEE ProofFloatErr ProofFloatNorm ProofFloatDist ProofFloatTransform ProofFloatPlane.
Local Open Scope R_scope.

(** ** Determinants *)
Lemma det2_perp (v w : vec R 2) : rdot (perp w) v = det2 v w.
Proof. destruct v as (v0 & v1 & []), w as (w0 & w1 & []). unfold perp, det2, rdot, mk2. cbn. ring. Qed.
Lemma perp_norm (w : vec R 2) : rnorm (perp w) = rnorm w.
Proof. unfold rnorm. f_equal. destruct w as (w0 & w1 & []). unfold perp, rdot, mk2. cbn. ring. Qed.
Lemma det2_le (v w : vec R 2) : Rabs (det2 v w) <= rnorm v * rnorm w.
Proof. rewrite <- det2_perp. eapply Rle_trans; [apply cauchy_schwarz|]. rewrite perp_norm. lra. Qed.
Lemma det2_anti (v w : vec R 2) : det2 w v = - det2 v w.
Proof. unfold det2. ring. Qed.
Lemma det2_terms (v w : vec R 2) : Rabs (fst v * fst (snd w)) + Rabs (fst w * fst (snd v)) <= rnorm v * rnorm w.
Proof.
  rewrite <- (perp_norm w). eapply Rle_trans; [|apply absdot_norms]. destruct v as (v0 & v1 & []), w as (w0 & w1 & []).
  unfold perp, rabsv, rdot, mk2. cbn. rewrite Rabs_Ropp, !Rabs_mult. lra.
Qed.
Lemma det2_change (v w v' w' : vec R 2) u : 0 <= u <= 1 / 128 -> rdist v' v <= u * rnorm v -> rdist w' w <= u * rnorm w ->
  Rabs (det2 v' w' - det2 v w) <= 202 / 100 * (u * (rnorm v * rnorm w)) /\ rnorm v' * rnorm w' <= 102 / 100 * (rnorm v * rnorm w).
Proof.
  intros Hu Hv Hw.
  assert (E : det2 v' w' - det2 v w = det2 (rsub v' v) w' + det2 v (rsub w' w)).
  { destruct v as (v0 & v1 & []), w as (w0 & w1 & []), v' as (v0' & v1' & []), w' as (w0' & w1' & []). unfold det2, rsub. cbn. ring. }
  assert (Nv : rnorm v' <= (1 + u) * rnorm v).
  { replace v' with (radd v (rsub v' v)) by apply radd_rsub. eapply Rle_trans; [apply rnorm_triangle|]. unfold rdist in Hv. lra. }
  assert (Nw : rnorm w' <= (1 + u) * rnorm w).
  { replace w' with (radd w (rsub w' w)) by apply radd_rsub. eapply Rle_trans; [apply rnorm_triangle|]. unfold rdist in Hw. lra. }
  pose proof (rnorm_nonneg v) as V0. pose proof (rnorm_nonneg w) as W0. pose proof (rnorm_nonneg v') as V0'. pose proof (rnorm_nonneg w') as W0'.
  set (a := rnorm v) in *. set (b := rnorm w) in *. set (a' := rnorm v') in *. set (b' := rnorm w') in *.
  assert (AB : 0 <= a * b) by (apply Rmult_le_pos; lra).
  assert (uAB : u * (a * b) <= 1 / 128 * (a * b)) by (apply Rmult_le_compat_r; lra). assert (uAB0 : 0 <= u * (a * b)) by (apply Rmult_le_pos; lra).
  assert (uuAB : u * (u * (a * b)) <= 1 / 128 * (u * (a * b))) by (apply Rmult_le_compat_r; lra).
  split.
  - rewrite E. eapply Rle_trans; [apply Rabs_triang|]. pose proof (det2_le (rsub v' v) w') as K1. pose proof (det2_le v (rsub w' w)) as K2. fold b' in K1. fold a in K2.
    unfold rdist in Hv, Hw.
    assert (K3 : rnorm (rsub v' v) * b' <= u * a * ((1 + u) * b)) by (apply Rmult_le_compat; [apply rnorm_nonneg|exact W0'|exact Hv|exact Nw]).
    assert (K4 : a * rnorm (rsub w' w) <= a * (u * b)) by (apply Rmult_le_compat_l; assumption). lra.
  - apply Rle_trans with ((1 + u) * a * ((1 + u) * b)); [apply Rmult_le_compat; assumption|]. lra.
Qed.

Section FX.
Context {p e : Z} {Hp : Prec_gt_0 p} {He : Prec_lt_emax p e}.
Notation bf := (binary_float p e).
Notation rnd := (rndf p e).
Notation fadd := (@Bplus p e Hp He mode_NE).
Notation fsub := (@Bminus p e Hp He mode_NE).
Notation fmul := (@Bmult p e Hp He mode_NE).
Notation fdiv := (@Bdiv p e Hp He mode_NE).
Notation u := (uround p).
Notation eta := (uflow p e).
Notation zero := (B754_zero false : bf).

Lemma det_fin_err (a b c d : bf) : u <= 1 / 128 -> fin (fsub (fmul a b) (fmul c d)) ->
  Rabs (B2R (fsub (fmul a b) (fmul c d)) - (B2R a * B2R b - B2R c * B2R d)) <=
    21 / 10 * (u * (Rabs (B2R a * B2R b) + Rabs (B2R c * B2R d))) + 21 / 10 * eta.
Proof.
  intros Hu1 F. pose proof (@u_pos p) as Hu. pose proof (@eta_pos p e) as Hh. change (@ProofFloatErr.eta p e) with eta in *.
  apply sub_fin in F as (F1 & F2 & E). apply mul_fin in F1 as (_ & _ & E1). apply mul_fin in F2 as (_ & _ & E2). rewrite E, E1, E2.
  set (x := B2R a * B2R b) in *. set (y := B2R c * B2R d) in *.
  pose proof (@rnd_near p e Hp x) as R1. pose proof (@rnd_near p e Hp y) as R2. change (@ProofFloatErr.eta p e) with eta in *.
  pose proof (rnd_sum (rnd x) (- rnd y) (rnd_fmt x) (generic_format_opp _ _ _ (rnd_fmt y))) as R3. change (rnd x + - rnd y) with (rnd x - rnd y) in R3.
  pose proof (Rabs_pos x) as X0. pose proof (Rabs_pos y) as Y0.
  assert (B : Rabs (rnd x - rnd y) <= Rabs x + Rabs y + (u * Rabs x + eta) + (u * Rabs y + eta)).
  { replace (rnd x - rnd y) with (x + (rnd x - x) + - (y + (rnd y - y))) by ring. eapply Rle_trans; [apply Rabs_triang|]. rewrite Rabs_Ropp.
    pose proof (Rabs_triang x (rnd x - x)). pose proof (Rabs_triang y (rnd y - y)). lra. }
  assert (B' : u * Rabs (rnd x - rnd y) <= u * (Rabs x + Rabs y + (u * Rabs x + eta) + (u * Rabs y + eta))) by (apply Rmult_le_compat_l; lra).
  set (z := Rabs x + Rabs y) in *. assert (uz : 0 <= u * z) by (apply Rmult_le_pos; unfold z; lra).
  assert (uuz : u * (u * z) <= 1 / 128 * (u * z)) by (apply Rmult_le_compat_r; lra).
  assert (ue : u * eta <= 1 / 128 * eta) by (apply Rmult_le_compat_r; lra).
  replace (rnd (rnd x - rnd y) - (x - y)) with (rnd (rnd x - rnd y) - (rnd x - rnd y) + ((rnd x - x) + - (rnd y - y))) by ring.
  eapply Rle_trans; [apply Rabs_triang|]. eapply Rle_trans; [apply Rplus_le_compat_l, Rabs_triang|]. rewrite Rabs_Ropp. unfold z in *. lra.
Qed.
Lemma det_ok (a b c d : bf) : u <= 1 / 128 -> fin a -> fin b -> fin c -> fin d ->
  Rabs (B2R a * B2R b) + Rabs (B2R c * B2R d) <= bpow radix2 (e - 2) -> fin (fsub (fmul a b) (fmul c d)).
Proof.
  intros Hu1 Fa Fb Fc Fd H. pose proof (@u_pos p) as Hu. pose proof (@eta_pos p e) as Hh. change (@ProofFloatErr.eta p e) with eta in *.
  assert (Heu : eta <= u) by (apply bpow_le; unfold Prec_gt_0 in Hp; unfold Prec_lt_emax in He; lia).
  assert (Hp5 : (7 <= p)%Z). { assert (Q : u <= bpow radix2 (-7)) by (cbn; lra). apply le_bpow in Q. lia. }
  assert (E1 : 1 <= bpow radix2 (e - 2)) by (apply (bpow_le radix2 0); unfold Prec_lt_emax in He; lia).
  assert (E0 : bpow radix2 e = 4 * bpow radix2 (e - 2)) by (replace e with (2 + (e - 2))%Z at 1 by lia; rewrite bpow_plus; reflexivity).
  set (x := B2R a * B2R b) in *. set (y := B2R c * B2R d) in *. pose proof (Rabs_pos x) as X0. pose proof (Rabs_pos y) as Y0.
  assert (K : forall v, Rabs v <= bpow radix2 (e - 2) -> Rabs (rnd v) <= Rabs v + 1 / 64 * bpow radix2 (e - 2)).
  { intros v Hv. pose proof (@rnd_near p e Hp v) as R1. change (@ProofFloatErr.eta p e) with eta in *. replace (rnd v) with (v + (rnd v - v)) by ring. eapply Rle_trans; [apply Rabs_triang|].
    pose proof (Rabs_pos v). assert (u * Rabs v <= 1 / 128 * Rabs v) by (apply Rmult_le_compat_r; lra). lra. }
  pose proof (K x ltac:(lra)) as Kx. pose proof (K y ltac:(lra)) as Ky.
  destruct (mul_ok a b Fa Fb ltac:(fold x; lra)) as (G1 & M1). destruct (mul_ok c d Fc Fd ltac:(fold y; lra)) as (G2 & M2). fold x in M1. fold y in M2.
  apply (sub_ok _ _ G1 G2). rewrite M1, M2.
  pose proof (rnd_sum (rnd x) (- rnd y) (rnd_fmt x) (generic_format_opp _ _ _ (rnd_fmt y))) as R3. change (rnd x + - rnd y) with (rnd x - rnd y) in R3.
  assert (B : Rabs (rnd x - rnd y) <= 2 * bpow radix2 (e - 2)).
  { unfold Rminus. eapply Rle_trans; [apply Rabs_triang|]. rewrite Rabs_Ropp. lra. }
  replace (rnd (rnd x - rnd y)) with (rnd x - rnd y + (rnd (rnd x - rnd y) - (rnd x - rnd y))) by ring. eapply Rle_lt_trans; [apply Rabs_triang|].
  assert (u * Rabs (rnd x - rnd y) <= 1 / 128 * Rabs (rnd x - rnd y)) by (apply Rmult_le_compat_r; [apply Rabs_pos|lra]). lra.
Qed.

(** [X] is a rounded determinant of [v] and [w] *)
Definition is_det (X : bf) (v w : vec bf 2) : Prop :=
  exists a b c d, X = fsub (fmul a b) (fmul c d) /\
    B2R a * B2R b - B2R c * B2R d = det2 (vreal v) (vreal w) /\
    Rabs (B2R a * B2R b) + Rabs (B2R c * B2R d) = Rabs (fst (vreal v) * fst (snd (vreal w))) + Rabs (fst (vreal w) * fst (snd (vreal v))) /\
    (finite_pt v -> finite_pt w -> fin a /\ fin b /\ fin c /\ fin d).
Lemma is_det_1 (v w : vec bf 2) : is_det (fsub (fmul (fst v) (fst (snd w))) (fmul (fst w) (fst (snd v)))) v w.
Proof.
  exists (fst v), (fst (snd w)), (fst w), (fst (snd v)). split; [reflexivity|]. destruct v as (v0 & v1 & []), w as (w0 & w1 & []).
  split; [reflexivity|]. split; [reflexivity|]. intros Fv Fw. split; [exact (Fv 0%nat ltac:(lia))|split; [exact (Fw 1%nat ltac:(lia))|split; [exact (Fw 0%nat ltac:(lia))|exact (Fv 1%nat ltac:(lia))]]].
Qed.
Lemma is_det_2 (v w : vec bf 2) : is_det (fsub (fmul (fst v) (fst (snd w))) (fmul (fst (snd v)) (fst w))) v w.
Proof.
  exists (fst v), (fst (snd w)), (fst (snd v)), (fst w). split; [reflexivity|]. destruct v as (v0 & v1 & []), w as (w0 & w1 & []).
  split; [unfold det2, vreal; cbn; ring|]. split; [unfold vreal; cbn; now rewrite (Rmult_comm (B2R v1))|].
  intros Fv Fw. split; [exact (Fv 0%nat ltac:(lia))|split; [exact (Fw 1%nat ltac:(lia))|split; [exact (Fv 1%nat ltac:(lia))|exact (Fw 0%nat ltac:(lia))]]].
Qed.
Lemma is_det_3 (v w : vec bf 2) : is_det (fsub (fmul (fst v) (Bopp (fst (snd w)))) (fmul (fst (snd v)) (Bopp (fst w)))) w v.
Proof.
  exists (fst v), (Bopp (fst (snd w))), (fst (snd v)), (Bopp (fst w)). split; [reflexivity|]. destruct v as (v0 & v1 & []), w as (w0 & w1 & []).
  rewrite !B2R_Bopp. split; [unfold det2, vreal; cbn; ring|]. split.
  - unfold vreal. cbn. rewrite !Ropp_mult_distr_r_reverse, !Rabs_Ropp, (Rmult_comm (B2R v1)), (Rmult_comm (B2R v0)). ring_simplify. rewrite (Rmult_comm (B2R w1)). ring.
  - intros Fw Fv. rewrite !is_finite_Bopp. split; [exact (Fv 0%nat ltac:(lia))|split; [exact (Fw 1%nat ltac:(lia))|split; [exact (Fv 1%nat ltac:(lia))|exact (Fw 0%nat ltac:(lia))]]].
Qed.

Lemma is_det_err X v w (v' w' : vec R 2) : u <= 1 / 128 -> is_det X v w -> fin X ->
  rdist (vreal v) v' <= u * rnorm v' -> rdist (vreal w) w' <= u * rnorm w' ->
  Rabs (B2R X - det2 v' w') <= 42 / 10 * (u * (rnorm v' * rnorm w')) + 22 / 10 * eta.
Proof.
  intros Hu1 (a & b & c & d & -> & E1 & E2 & _) F Hv Hw. pose proof (@u_pos p) as Hu. pose proof (@eta_pos p e) as Hh. change (@ProofFloatErr.eta p e) with eta in *.
  pose proof (det_fin_err a b c d Hu1 F) as K. rewrite E1, E2 in K. set (X := B2R (fsub (fmul a b) (fmul c d))) in *.
  pose proof (det2_terms (vreal v) (vreal w)) as T. destruct (det2_change v' w' (vreal v) (vreal w) u ltac:(lra) Hv Hw) as (C1 & C2).
  assert (AB : 0 <= rnorm v' * rnorm w') by (apply Rmult_le_pos; apply rnorm_nonneg). assert (uAB : 0 <= u * (rnorm v' * rnorm w')) by (apply Rmult_le_pos; lra).
  assert (T' : u * (Rabs (fst (vreal v) * fst (snd (vreal w))) + Rabs (fst (vreal w) * fst (snd (vreal v)))) <= u * (102 / 100 * (rnorm v' * rnorm w'))) by (apply Rmult_le_compat_l; lra).
  replace (X - det2 v' w') with (X - det2 (vreal v) (vreal w) + (det2 (vreal v) (vreal w) - det2 v' w')) by ring. eapply Rle_trans; [apply Rabs_triang|]. lra.
Qed.
Lemma is_det_fin X v w (v' w' : vec R 2) : u <= 1 / 128 -> is_det X v w -> finite_pt v -> finite_pt w ->
  rdist (vreal v) v' <= u * rnorm v' -> rdist (vreal w) w' <= u * rnorm w' -> rnorm v' * rnorm w' <= bpow radix2 (e - 3) -> fin X.
Proof.
  intros Hu1 (a & b & c & d & -> & E1 & E2 & E3) Fv Fw Hv Hw HB. pose proof (@u_pos p) as Hu. destruct (E3 Fv Fw) as (Fa & Fb & Fc & Fd).
  apply det_ok; try assumption. rewrite E2. eapply Rle_trans; [apply det2_terms|]. destruct (det2_change v' w' (vreal v) (vreal w) u ltac:(lra) Hv Hw) as (_ & C2).
  assert (E0 : bpow radix2 (e - 2) = 2 * bpow radix2 (e - 3)) by (replace (e - 2)%Z with (1 + (e - 3))%Z at 1 by lia; rewrite bpow_plus; reflexivity).
  assert (AB : 0 <= rnorm v' * rnorm w') by (apply Rmult_le_pos; apply rnorm_nonneg). lra.
Qed.

(** ** the quotient of two approximate determinants *)
Lemma solve_err (Nh Dh : bf) (N D L W M : R) : u <= 1 / 128 -> fin Dh -> fin (fdiv Nh Dh) -> 0 <= L -> 0 <= W -> 0 <= M ->
  Rabs (B2R Nh - N) <= 42 / 10 * (u * (M * W)) + 22 / 10 * eta -> Rabs (B2R Dh - D) <= 42 / 10 * (u * (L * W)) + 22 / 10 * eta ->
  Rabs N <= M * W -> Rabs D <= L * W ->
  let T := Rabs (B2R (fdiv Nh Dh)) in
  Rabs (B2R (fdiv Nh Dh) * D - N) <= 7 * u * W * (T * L + M) + eta * (4 * T + 3 * (L * W) + 5).
Proof.
  intros Hu1 FD FT L0 W0 M0 EN ED HN HD T. pose proof (@u_pos p) as Hu. pose proof (@eta_pos p e) as Hh. change (@ProofFloatErr.eta p e) with eta in *.
  pose proof (quotient_err Nh Dh N D _ _ FD FT EN ED) as Q. cbv zeta in Q. change (@ProofFloatErr.eta p e) with eta in *. fold T in Q.
  assert (Heu : eta <= u) by (apply bpow_le; unfold Prec_gt_0 in Hp; unfold Prec_lt_emax in He; lia).
  assert (MW0 : 0 <= M * W) by (apply Rmult_le_pos; assumption). assert (LW0 : 0 <= L * W) by (apply Rmult_le_pos; assumption).
  assert (uMW : 0 <= u * (M * W)) by (apply Rmult_le_pos; lra). assert (uLW : 0 <= u * (L * W)) by (apply Rmult_le_pos; lra).
  assert (BN : Rabs (B2R Nh) <= M * W + (42 / 10 * (u * (M * W)) + 22 / 10 * eta)).
  { replace (B2R Nh) with (N + (B2R Nh - N)) by ring. eapply Rle_trans; [apply Rabs_triang|]. lra. }
  assert (BD : Rabs (B2R Dh) <= L * W + (42 / 10 * (u * (L * W)) + 22 / 10 * eta)).
  { replace (B2R Dh) with (D + (B2R Dh - D)) by ring. eapply Rle_trans; [apply Rabs_triang|]. lra. }
  assert (BD' : Rabs (B2R Dh) <= 3 * (L * W) + 1). { assert (u * (L * W) <= 1 / 128 * (L * W)) by (apply Rmult_le_compat_r; lra). lra. }
  assert (Q1 : u * Rabs (B2R Nh) <= 11 / 10 * (u * (M * W)) + 1 / 10 * eta).
  { eapply Rle_trans; [apply Rmult_le_compat_l; [lra|exact BN]|]. assert (u * eta <= 1 / 128 * eta) by (apply Rmult_le_compat_r; lra).
    assert (u * (u * (M * W)) <= 1 / 128 * (u * (M * W))) by (apply Rmult_le_compat_r; lra). lra. }
  assert (Q2 : eta * Rabs (B2R Dh) <= eta * (3 * (L * W) + 1)) by (apply Rmult_le_compat_l; lra).
  assert (T0 : 0 <= T) by apply Rabs_pos.
  assert (TuLW : 0 <= T * (u * (L * W))) by (apply Rmult_le_pos; lra). assert (Te : 0 <= T * eta) by (apply Rmult_le_pos; lra).
  eapply Rle_trans; [exact Q|]. lra.
Qed.
Lemma solve_fin (Nh Dh : bf) (N D L W M : R) : u <= 1 / 128 -> fin Nh -> fin Dh -> 0 <= L -> 0 <= W -> 0 <= M ->
  Rabs (B2R Nh - N) <= 42 / 10 * (u * (M * W)) + 22 / 10 * eta -> Rabs (B2R Dh - D) <= 42 / 10 * (u * (L * W)) + 22 / 10 * eta ->
  Rabs N <= M * W -> 2 * (7 * u * (L * W) + 4 * eta) <= Rabs D -> M * W + 1 <= bpow radix2 (e - 3) * Rabs D ->
  fin (fdiv Nh Dh).
Proof.
  intros Hu1 FN FD L0 W0 M0 EN ED HN HD R4. pose proof (@u_pos p) as Hu. pose proof (@eta_pos p e) as Hh. change (@ProofFloatErr.eta p e) with eta in *.
  assert (Heu : eta <= u) by (apply bpow_le; unfold Prec_gt_0 in Hp; unfold Prec_lt_emax in He; lia).
  assert (MW0 : 0 <= M * W) by (apply Rmult_le_pos; assumption). assert (LW0 : 0 <= L * W) by (apply Rmult_le_pos; assumption).
  assert (uLW : 0 <= u * (L * W)) by (apply Rmult_le_pos; lra).
  assert (uMW : u * (M * W) <= 1 / 128 * (M * W)) by (apply Rmult_le_compat_r; lra).
  assert (E2 : bpow radix2 e = 8 * bpow radix2 (e - 3)) by (replace e with (3 + (e - 3))%Z at 1 by lia; rewrite bpow_plus; reflexivity).
  assert (B0 : 0 < bpow radix2 (e - 3)) by apply bpow_gt_0.
  assert (BN : Rabs (B2R Nh) <= 2 * (M * W + 1)).
  { replace (B2R Nh) with (N + (B2R Nh - N)) by ring. eapply Rle_trans; [apply Rabs_triang|]. lra. }
  assert (BD : Rabs D <= 2 * Rabs (B2R Dh)).
  { assert (Rabs D <= Rabs (B2R Dh) + Rabs (B2R Dh - D)); [|lra]. replace D with (B2R Dh - (B2R Dh - D)) at 1 by ring. unfold Rminus at 1. eapply Rle_trans; [apply Rabs_triang|]. rewrite Rabs_Ropp. lra. }
  assert (D0 : 0 < Rabs (B2R Dh)) by (assert (0 < Rabs D); [|lra]; destruct (Rle_or_lt (Rabs D) 0) as [Q|Q]; [|exact Q]; assert (bpow radix2 (e - 3) * Rabs D <= bpow radix2 (e - 3) * 0) by (apply Rmult_le_compat_l; lra); lra).
  assert (Dn : B2R Dh <> 0) by (intros Q; rewrite Q, Rabs_R0 in D0; lra).
  assert (BQ : Rabs (B2R Nh / B2R Dh) <= 4 * bpow radix2 (e - 3)).
  { unfold Rdiv. rewrite Rabs_mult, Rabs_inv. apply Rmult_le_reg_r with (Rabs (B2R Dh)); [exact D0|]. rewrite Rmult_assoc, Rinv_l, Rmult_1_r by lra.
    assert (bpow radix2 (e - 3) * Rabs D <= bpow radix2 (e - 3) * (2 * Rabs (B2R Dh))) by (apply Rmult_le_compat_l; lra). lra. }
  assert (BR : Rabs (rnd (B2R Nh / B2R Dh)) < bpow radix2 e).
  { apply Rle_lt_trans with (4 * bpow radix2 (e - 3)); [|lra].
    assert (E4 : 4 * bpow radix2 (e - 3) = bpow radix2 (e - 1)) by (replace (e - 1)%Z with (2 + (e - 3))%Z by lia; rewrite bpow_plus; reflexivity).
    rewrite E4 in *. rewrite <- rnd_abs, <- (rnd_id (p := p) (e := e) (bpow radix2 (e - 1))) by (apply fmt_pow; unfold Prec_gt_0 in Hp; unfold Prec_lt_emax in He; lia).
    apply rnd_le. exact BQ. }
  apply (div_ok Nh Dh FN Dn BR).
Qed.
End FX.
