(** * Rounding errors of angles, and chords of circles *)

From Coq Require Import Bool Lia ZArith Reals Lra Psatz.
From Flocq Require Import Core BinarySingleNaN.
From Verif Require Import Scalar Linal SpecReal VecR VecLemmas SpecIEEE SpecFloatErr SpecFloatTess ProofRound ProofIEEE ProofFloatErr ProofFloatNorm.
Local Open Scope R_scope.

(** ** Real trigonometry *)
Lemma abs_sin_le x : Rabs (sin x) <= Rabs x.
Proof.
  assert (K : forall y, 0 <= y -> Rabs (sin y) <= y).
  { intros y Hy. pose proof (SIN_bound y). destruct (Rle_lt_dec 1 y) as [H1|H1]; [apply Rabs_le; lra|].
    destruct (Rle_lt_or_eq_dec 0 y Hy) as [H0|<-]; [|rewrite sin_0, Rabs_R0; lra].
    pose proof (sin_lt_x y H0). pose proof PI2_3_2. assert (0 < sin y) by (apply sin_gt_0; lra). rewrite Rabs_pos_eq; lra. }
  destruct (Rle_lt_dec 0 x) as [H|H].
  - rewrite (Rabs_pos_eq x) by exact H. apply K, H.
  - rewrite (Rabs_left x) by exact H. rewrite <- (Rabs_Ropp (sin x)), <- sin_neg. apply K. lra.
Qed.
Lemma abs_sin_1 x : Rabs (sin x) <= 1.
Proof. apply Rabs_le. pose proof (SIN_bound x). lra. Qed.
Lemma abs_cos_1 x : Rabs (cos x) <= 1.
Proof. apply Rabs_le. pose proof (COS_bound x). lra. Qed.
Lemma cos_lip x y : Rabs (cos x - cos y) <= Rabs (x - y).
Proof.
  rewrite form2, !Rabs_mult. pose proof (abs_sin_le ((x - y) / 2)) as A. pose proof (abs_sin_1 ((x + y) / 2)) as B.
  unfold Rdiv in A at 2. rewrite Rabs_mult, (Rabs_pos_eq (/ 2)) in A by lra. rewrite (Rabs_left (-2)) by lra.
  pose proof (Rabs_pos (sin ((x - y) / 2))). pose proof (Rabs_pos (sin ((x + y) / 2))). nra.
Qed.
Lemma sin_lip x y : Rabs (sin x - sin y) <= Rabs (x - y).
Proof.
  rewrite form4, !Rabs_mult. pose proof (abs_sin_le ((x - y) / 2)) as A. pose proof (abs_cos_1 ((x + y) / 2)) as B.
  unfold Rdiv in A at 2. rewrite Rabs_mult, (Rabs_pos_eq (/ 2)) in A by lra. rewrite (Rabs_pos_eq 2) by lra.
  pose proof (Rabs_pos (sin ((x - y) / 2))). pose proof (Rabs_pos (cos ((x + y) / 2))). nra.
Qed.

(** the sine lies above its chord (Jordan) *)
Lemma sin_chord x : 0 <= x <= PI / 2 -> 2 * x <= PI * sin x.
Proof.
  intros [H0 H1]. destruct (Rle_lt_or_eq_dec 0 x H0) as [Hx|<-]; [|rewrite sin_0; lra].
  destruct (Rle_lt_or_eq_dec x (PI / 2) H1) as [Hy| ->]; [|rewrite sin_PI2; lra].
  pose proof PI_RGT_0.
  destruct (MVT_cor2 sin cos 0 x Hx (fun c _ => derivable_pt_lim_sin c)) as (c & E & Hc).
  destruct (MVT_cor2 sin cos x (PI / 2) Hy (fun c _ => derivable_pt_lim_sin c)) as (c' & E' & Hc').
  rewrite sin_0 in E. rewrite sin_PI2 in E'.
  assert (K : cos c' <= cos c) by (apply cos_decr_1; lra).
  assert (K' : cos c' * (PI / 2 - x) <= cos c * (PI / 2 - x)) by (apply Rmult_le_compat_r; lra).
  assert (Es : sin x = cos c * x) by lra.
  assert (A : 1 <= cos c * (PI / 2)) by lra.
  rewrite Es. assert (0 <= (cos c * (PI / 2) - 1) * x) by (apply Rmult_le_pos; lra). lra.
Qed.
(** the sine of a multiple of a fraction of pi *)
Lemma sin_frac N k : (0 < k < N)%nat -> 2 / INR N <= sin (INR k * (PI / INR N)).
Proof.
  intros [Hk0 Hk1]. pose proof PI_RGT_0 as HPI.
  assert (HN : 0 < INR N) by (apply (lt_INR 0); lia).
  assert (K : forall j, (0 < j)%nat -> (2 * j <= N)%nat -> 2 / INR N <= sin (INR j * (PI / INR N))).
  { intros j Hj0 Hj. apply le_INR in Hj. rewrite mult_INR in Hj. cbn [INR] in Hj.
    assert (J1 : 1 <= INR j) by (apply (le_INR 1); lia).
    assert (E : INR j * (PI / INR N) = PI * (INR j / INR N)) by (field; lra).
    assert (I1 : 0 < INR j / INR N) by (apply Rdiv_lt_0_compat; lra).
    assert (I2 : INR j / INR N <= 1 / 2).
    { apply Rmult_le_reg_r with (INR N); [exact HN|]. unfold Rdiv. rewrite Rmult_assoc, Rinv_l by lra. lra. }
    assert (I3 : 2 / INR N <= 2 * (INR j / INR N)).
    { unfold Rdiv. assert (0 < / INR N) by (apply Rinv_0_lt_compat; exact HN). nra. }
    pose proof (sin_chord (INR j * (PI / INR N))) as C. rewrite E in *. 
    assert (C1 : 2 * (PI * (INR j / INR N)) <= PI * sin (PI * (INR j / INR N))) by (apply C; nra).
    assert (C2 : 2 * (INR j / INR N) <= sin (PI * (INR j / INR N))) by (apply Rmult_le_reg_l with PI; lra). lra. }
  destruct (le_lt_dec (2 * k) N) as [H|H]; [apply K; lia|].
  assert (E : INR k * (PI / INR N) = PI - INR (N - k) * (PI / INR N)) by (rewrite minus_INR by lia; field; lra).
  rewrite E, sin_PI_x. apply K; lia.
Qed.
Lemma cos_half x : 2 - 2 * cos x = 4 * (sin (x / 2) * sin (x / 2)).
Proof. replace x with (2 * (x / 2)) at 1 by field. rewrite cos_2a_sin. ring. Qed.

(** ** Operations on numbers close to given values *)
Section Trig.
Context {p e : Z} {Hp : Prec_gt_0 p} {He : Prec_lt_emax p e}.
Notation bf := (binary_float p e).
Notation rnd := (rndf p e).
Notation fadd := (@Bplus p e Hp He mode_NE).
Notation fmul := (@Bmult p e Hp He mode_NE).
Notation fdiv := (@Bdiv p e Hp He mode_NE).
Notation u := (uround p).
Notation eta := (@eta p e).
Notation fnat i := (ieee_pow p e Hp He (Z.of_nat i) 0).

Lemma rnd_close x X a A c : Rabs (x - X) <= a -> Rabs X <= A -> a + u * (A + a) + eta <= c -> Rabs (rnd x - X) <= c.
Proof.
  intros H1 H2 H3. pose proof (@rnd_near p e Hp x) as N. pose proof (@u_pos p) as Hu.
  assert (B : Rabs x <= A + a).
  { replace x with (X + (x - X)) by ring. eapply Rle_trans; [apply Rabs_triang|]. lra. }
  assert (C : u * Rabs x <= u * (A + a)) by (apply Rmult_le_compat_l; lra).
  replace (rnd x - X) with (rnd x - x + (x - X)) by ring. eapply Rle_trans; [apply Rabs_triang|]. lra.
Qed.
Lemma close_range x X c A B : Rabs (x - X) <= c -> Rabs X <= A -> A + c < B -> Rabs x < B.
Proof. intros H1 H2 H3. replace x with (X + (x - X)) by ring. eapply Rle_lt_trans; [apply Rabs_triang|]. lra. Qed.

Lemma mul_close x y X Y a b A B c : fin x -> fin y -> Rabs (B2R x - X) <= a -> Rabs (B2R y - Y) <= b ->
  Rabs X <= A -> Rabs Y <= B ->
  a * (B + b) + A * b + u * (A * B + (a * (B + b) + A * b)) + eta <= c -> A * B + c < bpow radix2 e ->
  fin (fmul x y) /\ Rabs (B2R (fmul x y) - X * Y) <= c.
Proof.
  intros Fx Fy Hx Hy HX HY Hc Ho.
  assert (P1 : Rabs (X * Y) <= A * B) by (rewrite Rabs_mult; apply Rmult_le_compat; try apply Rabs_pos; assumption).
  assert (P2 : Rabs (B2R x * B2R y - X * Y) <= a * (B + b) + A * b).
  { replace (B2R x * B2R y - X * Y) with ((B2R x - X) * B2R y + X * (B2R y - Y)) by ring.
    eapply Rle_trans; [apply Rabs_triang|]. rewrite !Rabs_mult. apply Rplus_le_compat; apply Rmult_le_compat; try apply Rabs_pos; try assumption.
    replace (B2R y) with (Y + (B2R y - Y)) by ring. eapply Rle_trans; [apply Rabs_triang|]. lra. }
  pose proof (rnd_close _ _ _ _ _ P2 P1 Hc) as P3.
  destruct (@mul_ok p e Hp He x y Fx Fy (close_range _ _ _ _ _ P3 P1 Ho)) as (F & E).
  split; [exact F|]. rewrite E. exact P3.
Qed.
Lemma add_close x y X Y a b A c : fin x -> fin y -> Rabs (B2R x - X) <= a -> Rabs (B2R y - Y) <= b ->
  Rabs (X + Y) <= A -> a + b + u * (A + (a + b)) + eta <= c -> A + c < bpow radix2 e ->
  fin (fadd x y) /\ Rabs (B2R (fadd x y) - (X + Y)) <= c.
Proof.
  intros Fx Fy Hx Hy HX Hc Ho.
  assert (P2 : Rabs (B2R x + B2R y - (X + Y)) <= a + b).
  { replace (B2R x + B2R y - (X + Y)) with ((B2R x - X) + (B2R y - Y)) by ring. eapply Rle_trans; [apply Rabs_triang|]. lra. }
  pose proof (rnd_close _ _ _ _ _ P2 HX Hc) as P3.
  destruct (@add_ok p e Hp He x y Fx Fy (close_range _ _ _ _ _ P3 HX Ho)) as (F & E).
  split; [exact F|]. rewrite E. exact P3.
Qed.

Lemma fnat_spec i : INR i < bpow radix2 p -> fin (fnat i) /\ B2R (fnat i) = INR i.
Proof.
  intros H. pose proof (@emax_pos p e Hp He) as (P1 & P2).
  destruct (@pow_spec p e Hp He (Z.of_nat i) 0) as (F & E); try lia.
  - rewrite Z.abs_eq by lia. apply lt_IZR. rewrite <- INR_IZR_INZ. rewrite <- IZR_Zpower in H by lia. exact H.
  - split; [exact F|]. rewrite E, <- INR_IZR_INZ. cbn. ring.
Qed.

(** multiples of a fraction of a number: [T] is close to [V], [i <= N] *)
Lemma fraction_close (T : bf) V a A d N i c : (2 < p)%Z -> u <= d -> fin T -> Rabs (B2R T - V) <= a -> Rabs V <= A -> A + c < 16 ->
  (0 < N)%nat -> (i <= N)%nat -> INR N * d <= 1 / 64 ->
  a + u * (2 * A + 2 * a) + u / 2 + u * (u * (A + a)) <= c ->
  (fin (fmul (fnat i) (fdiv T (fnat N))) /\ Rabs (B2R (fmul (fnat i) (fdiv T (fnat N))) - INR i * (V / INR N)) <= c) /\
  (fin (fmul (fnat i) (Bopp (fdiv T (fnat N)))) /\ Rabs (B2R (fmul (fnat i) (Bopp (fdiv T (fnat N)))) - INR i * - (V / INR N)) <= c).
Proof.
  intros H2 Hd FT HT HV HA HN Hi Hs Hc. pose proof (@u_pos p) as Hu. pose proof (@eta_pos p e) as Hh.
  pose proof (@emax_pos p e Hp He) as (P1 & P2).
  assert (N1 : 1 <= INR N) by (apply (le_INR 1); lia). assert (i0 : 0 <= INR i) by apply pos_INR. assert (iN : INR i <= INR N) by (apply le_INR; exact Hi).
  assert (a0 : 0 <= a) by (eapply Rle_trans; [apply Rabs_pos|exact HT]). assert (A0 : 0 <= A) by (eapply Rle_trans; [apply Rabs_pos|exact HV]).
  assert (Hsu : INR N * u <= 1 / 64) by (apply Rle_trans with (INR N * d); [apply Rmult_le_compat_l; lra|exact Hs]).
  assert (Eu : u * bpow radix2 p = 1) by (unfold uround; rewrite <- bpow_plus; replace (- p + p)%Z with 0%Z by lia; reflexivity).
  assert (NP : INR N < bpow radix2 p).
  { apply Rmult_lt_reg_l with u; [exact Hu|]. rewrite Eu. lra. }
  assert (Ne : INR N * eta <= u / 8).
  { assert (E1 : eta = u * bpow radix2 (2 - e)) by (unfold ProofFloatErr.eta, uround; rewrite <- bpow_plus; f_equal; lia).
    assert (E2 : bpow radix2 (2 - e) <= u * 2).
    { unfold uround. replace (bpow radix2 (- p) * 2) with (bpow radix2 (- p + 1)) by (rewrite bpow_plus; reflexivity). apply bpow_le. lia. }
    rewrite E1. replace (INR N * (u * bpow radix2 (2 - e))) with (INR N * u * bpow radix2 (2 - e)) by ring.
    apply Rle_trans with (1 / 64 * (u * 2)); [|lra]. apply Rmult_le_compat; try lra; [apply Rmult_le_pos; lra|apply bpow_ge_0]. }
  assert (e1 : eta <= u / 8) by (apply Rle_trans with (INR N * eta); [|exact Ne]; rewrite <- (Rmult_1_l eta) at 1; apply Rmult_le_compat_r; lra).
  assert (HE : 16 <= bpow radix2 e) by (change 16 with (bpow radix2 4); apply bpow_le; lia).
  destruct (fnat_spec N NP) as (FN & EN). destruct (fnat_spec i ltac:(lra)) as (Fi & Ei).
  assert (Iv : 0 < / INR N) by (apply Rinv_0_lt_compat; lra).
  assert (Iv1 : / INR N <= 1) by (rewrite <- Rinv_1; apply Rinv_le_contravar; lra).
  (* the step *)
  set (s := (a + u * (A + a)) * / INR N + eta).
  assert (c0 : u * (A + a) <= u * (2 * A + 2 * a)) by (apply Rmult_le_compat_l; lra).
  assert (u0 : 0 <= u * (A + a)) by (apply Rmult_le_pos; lra).
  assert (uu : 0 <= u * (u * (A + a))) by (apply Rmult_le_pos; lra).
  assert (S1 : Rabs (B2R T / B2R (fnat N) - V / INR N) <= a * / INR N).
  { rewrite EN. replace (B2R T / INR N - V / INR N) with ((B2R T - V) * / INR N) by (field; lra).
    rewrite Rabs_mult, (Rabs_pos_eq (/ INR N)) by lra. apply Rmult_le_compat_r; lra. }
  assert (S2 : Rabs (V / INR N) <= A * / INR N).
  { unfold Rdiv. rewrite Rabs_mult, (Rabs_pos_eq (/ INR N)) by lra. apply Rmult_le_compat_r; lra. }
  assert (S3 : Rabs (rnd (B2R T / B2R (fnat N)) - V / INR N) <= s).
  { apply (rnd_close _ _ _ _ s S1 S2). unfold s. right. ring. }
  assert (AN : A * / INR N <= A) by (rewrite <- (Rmult_1_r A) at 2; apply Rmult_le_compat_l; lra).
  assert (sb : s <= a + u * (A + a) + u / 8).
  { unfold s. apply Rplus_le_compat; [|exact e1]. rewrite <- (Rmult_1_r (a + u * (A + a))) at 2. apply Rmult_le_compat_l; lra. }
  destruct (@div_ok p e Hp He T (fnat N) FT) as (FS & ES).
  { rewrite EN. lra. }
  { eapply (close_range _ _ s (A * / INR N)); [exact S3|exact S2|]. lra. }
  assert (Si : INR i * s <= a + u * (A + a) + u / 8).
  { unfold s. apply Rle_trans with (INR N * ((a + u * (A + a)) * / INR N + eta)).
    - apply Rmult_le_compat_r; [|exact iN]. apply Rplus_le_le_0_compat; [|lra]. apply Rmult_le_pos; lra.
    - rewrite Rmult_plus_distr_l. replace (INR N * ((a + u * (A + a)) * / INR N)) with (a + u * (A + a)) by (field; lra). lra. }
  assert (s0 : 0 <= s) by (eapply Rle_trans; [apply Rabs_pos|exact S3]).
  assert (iV : INR i * (A * / INR N) <= A).
  { apply Rle_trans with (INR N * (A * / INR N)); [apply Rmult_le_compat_r; [apply Rmult_le_pos; lra|exact iN]|]. right. field. lra. }
  assert (K : forall y Y, fin y -> Rabs (B2R y - Y) <= s -> Rabs Y <= A * / INR N ->
    fin (fmul (fnat i) y) /\ Rabs (B2R (fmul (fnat i) y) - INR i * Y) <= c).
  { intros y Y Fy Hy HY. apply (mul_close (fnat i) y (INR i) Y 0 s (INR i) (A * / INR N)); try assumption.
    - rewrite Ei. unfold Rminus. rewrite Rplus_opp_r, Rabs_R0. lra.
    - rewrite Rabs_pos_eq; lra.
    - assert (M : u * (INR i * (A * / INR N) + (0 * (A * / INR N + s) + INR i * s)) <= u * (A + (a + u * (A + a) + u / 8))).
      { apply Rmult_le_compat_l; lra. }
      assert (u8 : u * (u / 8) <= u / 8).
      { assert (u <= 1 / 64) by (apply Rle_trans with (INR N * u); [rewrite <- (Rmult_1_l u) at 1; apply Rmult_le_compat_r; lra|exact Hsu]).
        assert (0 <= (1 - u) * u) by (apply Rmult_le_pos; lra). lra. }
      lra.
    - lra. }
  split.
  - apply K; [exact FS|rewrite ES; exact S3|exact S2].
  - apply K; [rewrite is_finite_Bopp; exact FS| |rewrite Rabs_Ropp; exact S2].
    rewrite B2R_Bopp, ES. replace (- rnd (B2R T / B2R (fnat N)) - - (V / INR N)) with (- (rnd (B2R T / B2R (fnat N)) - V / INR N)) by ring.
    rewrite Rabs_Ropp. exact S3.
Qed.
End Trig.
