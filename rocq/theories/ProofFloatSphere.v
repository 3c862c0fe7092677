(** * Intersections with spheres in floating point *)

From Coq Require Import List Bool Arith Lia ZArith Reals Lra Psatz.
From Flocq Require Import Core BinarySingleNaN.
From Verif Require Import Scalar Linal Result SpecReal VecR VecLemmas ModelShapes ModelIntersect
  SpecIEEE SpecFloatErr SpecFloatPlane SpecFloatSphere
  ProofRound ProofIEEE ProofFloatErr ProofFloatNorm ProofFloatDist ProofFloatTransform ProofFloatPlane.
Local Open Scope R_scope.

(** ** The errors, in units of the lengths of the scene *)
Lemma prod_bound x y a b : Rabs x <= a -> Rabs y <= b -> Rabs (x * y) <= a * b.
Proof. intros H K. rewrite Rabs_mult. apply Rmult_le_compat; try apply Rabs_pos; assumption. Qed.

(** the pairs [x : x'] are computed and exact values *)
Section QD.
Variables (u P V Q al d0 ww rr ga bb ac de : R).
Hypothesis Hu : 0 < u <= 1 / 1024.
Hypothesis HP : Rabs P <= 1.
Hypothesis HPV : P * P <= V.
Hypothesis HV : 0 <= V <= 1.
Hypothesis HQ : 0 <= Q <= 1.
Hypothesis Hal : Rabs (al - 1) <= 10 * u.
Hypothesis Hd0 : Rabs (d0 - P) <= 10 * u.
Hypothesis Hww : Rabs (ww - V) <= 10 * u.
Hypothesis Hrr : Rabs (rr - Q) <= 2 * u.
Hypothesis Hga : Rabs (ga - (ww - rr)) <= u * Rabs (ww - rr).
Let be := 2 * d0.
Let B := 2 * P.
Let C := V - Q.
Let D := 4 * (P * P - (V - Q)).
Hypothesis Hbb : Rabs (bb - be * be) <= u * (be * be) + u.
Hypothesis Hac : Rabs (ac - 4 * al * ga) <= u * Rabs (4 * al * ga) + u.
Hypothesis Hde : Rabs (de - (bb - ac)) <= u * Rabs (bb - ac).

Lemma qd_be : Rabs (be - B) <= 20 * u /\ Rabs be <= 202 / 100.
Proof. apply Rabs_le_inv in Hd0, HP. unfold be, B. split; apply Rabs_le; lra. Qed.
Lemma qd_ga : Rabs (ga - C) <= 131 / 10 * u /\ Rabs ga <= 102 / 100.
Proof.
  pose proof (Rabs_le_inv _ _ Hww) as K1. pose proof (Rabs_le_inv _ _ Hrr) as K2.
  assert (K3 : Rabs (ww - rr) <= 102 / 100) by (apply Rabs_le; lra).
  assert (K4 : u * Rabs (ww - rr) <= u * (102 / 100)) by (apply Rmult_le_compat_l; lra).
  pose proof (Rabs_le_inv _ _ Hga) as K5. unfold C. split; apply Rabs_le; lra.
Qed.
Lemma qd_alga : Rabs (4 * al * ga - 4 * C) <= 94 * u /\ Rabs (4 * al * ga) <= 416 / 100.
Proof.
  destruct qd_ga as (K1 & K2). 
  assert (K3 : Rabs ((al - 1) * ga) <= 10 * u * (102 / 100)) by (apply prod_bound; assumption).
  assert (E : 4 * al * ga = 4 * ((al - 1) * ga) + 4 * ga) by ring. apply Rabs_le_inv in K1, K2, K3. rewrite E. split; apply Rabs_le; lra.
Qed.
Lemma qd_bebe : Rabs (be * be - B * B) <= 81 * u /\ 0 <= be * be <= 409 / 100.
Proof.
  destruct qd_be as (K1 & K2). pose proof (Rle_0_sqr be) as K0. unfold Rsqr in K0.
  assert (K3 : Rabs (be * be) <= 202 / 100 * (202 / 100)) by (apply prod_bound; assumption).
  assert (K4 : Rabs ((be - B) * (be + B)) <= 20 * u * (403 / 100)).
  { apply prod_bound; [exact K1|]. unfold B in *. apply Rabs_le_inv in K2, HP. apply Rabs_le. lra. }
  replace (be * be - B * B) with ((be - B) * (be + B)) by ring. apply Rabs_le_inv in K3. split; [lra|]. lra.
Qed.
Lemma qd_D : -4 <= D <= 4.
Proof. unfold D. pose proof (Rle_0_sqr P) as K. unfold Rsqr in K. lra. Qed.
(** the rounding errors of the discriminant alone *)
Lemma qd_round : Rabs (de - (be * be - 4 * al * ga)) <= 147 / 10 * u /\ Rabs (de - D) <= 190 * u /\ Rabs de <= 419 / 100.
Proof.
  destruct qd_bebe as (B1 & B2). destruct qd_alga as (A1 & A2).
  assert (K1 : u * (be * be) <= u * (409 / 100)) by (apply Rmult_le_compat_l; lra).
  assert (K2 : u * Rabs (4 * al * ga) <= u * (416 / 100)) by (apply Rmult_le_compat_l; lra).
  pose proof (Rabs_le_inv _ _ Hbb) as K3. pose proof (Rabs_le_inv _ _ Hac) as K4. pose proof (Rabs_le_inv _ _ B1) as K5. pose proof (Rabs_le_inv _ _ A1) as K6.
  pose proof qd_D as HD. assert (ED : D = B * B - 4 * C) by (unfold D, B, C; ring).
  assert (K7 : Rabs (bb - ac) <= 419 / 100) by (apply Rabs_le; lra).
  assert (K8 : u * Rabs (bb - ac) <= u * (419 / 100)) by (apply Rmult_le_compat_l; lra).
  pose proof (Rabs_le_inv _ _ Hde) as K9. split; [|split]; apply Rabs_le; lra.
Qed.

(** the roots *)
Variables (sg nu tau : R).
Hypothesis Hsg : Rabs (Rabs sg - sqrt de) <= u * sqrt de.
Hypothesis de0 : 0 < de.
Hypothesis Hnu : Rabs (nu - (- be + sg)) <= u * Rabs (- be + sg).
Hypothesis Htau : Rabs (tau - nu / (2 * al)) <= u * Rabs (nu / (2 * al)) + u.

Lemma qd_al : 99 / 100 <= al <= 101 / 100.
Proof. apply Rabs_le_inv in Hal. lra. Qed.
Lemma qd_sqrt : 0 <= sqrt de <= 205 / 100.
Proof.
  split; [apply sqrt_pos|]. destruct qd_round as (_ & _ & K). apply Rabs_le_inv in K.
  rewrite <- (sqrt_square (205 / 100)) by lra. apply sqrt_le_1_alt. lra.
Qed.
Lemma qd_sg : Rabs sg <= 206 / 100 /\ Rabs (sg * sg - de) <= 86 / 10 * u.
Proof.
  pose proof qd_sqrt as K. apply Rabs_le_inv in Hsg. set (s := Rabs sg) in *. assert (s0 : 0 <= s) by apply Rabs_pos.
  assert (us : u * sqrt de <= u * (205 / 100)) by (apply Rmult_le_compat_l; lra).
  split; [lra|]. replace (sg * sg) with (s * s) by (unfold s; rewrite <- Rabs_mult; apply Rabs_pos_eq, Rle_0_sqr).
  pose proof (sqrt_def de ltac:(lra)) as E. rewrite <- E at 1. set (q := sqrt de) in *.
  replace (s * s - q * q) with ((s - q) * (s + q)) by ring.
  eapply Rle_trans; [apply (prod_bound _ _ (u * q) (2003 / 1000 * q))|].
  - apply Rabs_le. lra.
  - assert (uq : u * q <= 1 / 1024 * q) by (apply Rmult_le_compat_r; lra). apply Rabs_le. lra.
  - destruct qd_round as (_ & _ & K3). apply Rabs_le_inv in K3.
    replace (u * q * (2003 / 1000 * q)) with (u * (q * q) * (2003 / 1000)) by ring. rewrite E.
    assert (u * de <= u * (419 / 100)) by (apply Rmult_le_compat_l; lra). lra.
Qed.
Let x0 := (- be + sg) / (2 * al).
Lemma qd_x0 : Rabs x0 <= 207 / 100 /\ Rabs (tau - x0) <= 52 / 10 * u /\ Rabs tau <= 208 / 100.
Proof.
  pose proof qd_al as A. destruct qd_sg as (S1 & _). destruct qd_be as (_ & B1).
  assert (K1 : Rabs (- be + sg) <= 408 / 100) by (eapply Rle_trans; [apply Rabs_triang|]; rewrite Rabs_Ropp; lra).
  assert (I0 : 0 < / (2 * al) <= / (198 / 100)) by (split; [apply Rinv_0_lt_compat; lra|apply Rinv_le_contravar; lra]).
  assert (X0 : Rabs x0 <= 207 / 100).
  { unfold x0, Rdiv. eapply Rle_trans; [apply (prod_bound _ _ (408 / 100) (/ (198 / 100)) K1); rewrite Rabs_pos_eq; lra|]. lra. }
  assert (N : Rabs (nu / (2 * al) - x0) <= u * Rabs x0).
  { replace (nu / (2 * al) - x0) with ((nu - (- be + sg)) * / (2 * al)) by (unfold x0; field; lra).
    unfold x0, Rdiv. rewrite !Rabs_mult, <- Rmult_assoc. apply Rmult_le_compat_r; [apply Rabs_pos|exact Hnu]. }
  assert (uX : u * Rabs x0 <= u * (207 / 100)) by (apply Rmult_le_compat_l; lra).
  assert (N2 : Rabs (nu / (2 * al)) <= 2073 / 1000).
  { replace (nu / (2 * al)) with (x0 + (nu / (2 * al) - x0)) by ring. eapply Rle_trans; [apply Rabs_triang|]. lra. }
  assert (uN : u * Rabs (nu / (2 * al)) <= u * (2073 / 1000)) by (apply Rmult_le_compat_l; lra).
  assert (T1 : Rabs (tau - x0) <= 52 / 10 * u).
  { replace (tau - x0) with ((tau - nu / (2 * al)) + (nu / (2 * al) - x0)) by ring. eapply Rle_trans; [apply Rabs_triang|]. lra. }
  split; [exact X0|]. split; [exact T1|]. replace tau with (x0 + (tau - x0)) by ring. eapply Rle_trans; [apply Rabs_triang|]. lra.
Qed.
Lemma qd_residual : Rabs (tau * tau + B * tau + C) <= 140 * u.
Proof.
  destruct qd_x0 as (X0 & T1 & T2). pose proof qd_al as A. destruct qd_sg as (S1 & S2). destruct qd_be as (B1 & B2). destruct qd_ga as (G1 & G2).
  destruct qd_round as (R1 & _ & _). pose proof (Rabs_le_inv _ _ HP) as HP'.
  set (Ch := (be * be - sg * sg) / (4 * al)).
  assert (Q0 : al * (x0 * x0) + be * x0 + Ch = 0) by (unfold x0, Ch; field; lra).
  assert (C1 : Rabs (Ch - ga) <= 59 / 10 * u).
  { replace (Ch - ga) with (- ((sg * sg - de) + (de - (be * be - 4 * al * ga))) * / (4 * al)) by (unfold Ch; field; lra).
    eapply Rle_trans; [apply (prod_bound _ _ (233 / 10 * u) (/ (396 / 100)))|].
    - rewrite Rabs_Ropp. eapply Rle_trans; [apply Rabs_triang|]. lra.
    - rewrite Rabs_pos_eq; [apply Rinv_le_contravar; lra|left; apply Rinv_0_lt_compat; lra].
    - lra. }
  assert (F0 : x0 * x0 + B * x0 + C = (1 - al) * (x0 * x0) + (B - be) * x0 + (C - ga) + (ga - Ch)) by lra.
  assert (M1 : Rabs ((1 - al) * (x0 * x0)) <= 10 * u * (207 / 100 * (207 / 100))) by (apply prod_bound; [rewrite Rabs_minus_sym; exact Hal|apply prod_bound; exact X0]).
  assert (M2 : Rabs ((B - be) * x0) <= 20 * u * (207 / 100)) by (apply prod_bound; [rewrite Rabs_minus_sym; exact B1|exact X0]).
  assert (M3 : Rabs ((tau - x0) * (tau + x0 + B)) <= 52 / 10 * u * (615 / 100)).
  { apply prod_bound; [exact T1|]. apply Rabs_le_inv in T2, X0. unfold B. apply Rabs_le. lra. }
  assert (E : tau * tau + B * tau + C = (1 - al) * (x0 * x0) + (B - be) * x0 + (C - ga) + (ga - Ch) + (tau - x0) * (tau + x0 + B)).
  { rewrite <- F0. ring. }
  rewrite E. apply Rabs_le_inv in M1, M2, M3, G1, C1. apply Rabs_le. lra.
Qed.
(** the distance to the exact root *)
Lemma qd_forward z : Rabs z = sqrt D -> 0 < D -> 0 <= sg * z -> Rabs (tau - (- B + z) / 2) * sqrt D <= 180 * u.
Proof.
  intros Hz D0 Hs. destruct qd_x0 as (X0 & T1 & T2). pose proof qd_al as A. destruct qd_sg as (S1 & S2). destruct qd_be as (B1 & B2).
  destruct qd_round as (_ & R2 & _). pose proof qd_D as HD.
  assert (q2 : 0 < sqrt D <= 2) by (split; [apply sqrt_lt_R0, D0|rewrite <- (sqrt_square 2) by lra; apply sqrt_le_1_alt; lra]).
  pose proof (sqrt_def D ltac:(lra)) as E. assert (Ez : z * z = D).
  { rewrite <- E, <- Hz, <- Rabs_mult. symmetry. apply Rabs_pos_eq, Rle_0_sqr. }
  assert (SD : Rabs (sg - z) * sqrt D <= 199 * u).
  { assert (K : Rabs ((sg - z) * (sg + z)) <= 199 * u).
    { replace ((sg - z) * (sg + z)) with ((sg * sg - de) + (de - D)) by (rewrite <- Ez; ring). eapply Rle_trans; [apply Rabs_triang|]. lra. }
    rewrite Rabs_mult in K. eapply Rle_trans; [|exact K]. apply Rmult_le_compat_l; [apply Rabs_pos|].
    rewrite <- Hz. destruct (Rle_dec 0 z) as [Z|Z].
    - assert (0 <= sg). { destruct (Rle_dec 0 sg); [assumption|]. exfalso. assert (0 < z) by (rewrite Rabs_pos_eq in Hz; lra). assert (0 < - sg * z) by (apply Rmult_lt_0_compat; lra). lra. }
      rewrite !Rabs_pos_eq; lra.
    - assert (sg <= 0). { destruct (Rle_dec sg 0); [assumption|]. exfalso. assert (0 < sg * - z) by (apply Rmult_lt_0_compat; lra). lra. }
      rewrite !Rabs_left1; lra. }
  assert (Ex : 2 * (tau - (- B + z) / 2) = 2 * (tau - x0) + 2 * x0 * (1 - al) + (B - be) + (sg - z)) by (unfold x0; field; lra).
  assert (M1 : Rabs (2 * x0 * (1 - al)) <= 2 * (207 / 100) * (10 * u)).
  { apply prod_bound; [rewrite Rabs_mult, Rabs_pos_eq by lra; lra|rewrite Rabs_minus_sym; exact Hal]. }
  assert (M : Rabs (2 * (tau - x0) + 2 * x0 * (1 - al) + (B - be)) <= 72 * u).
  { apply Rabs_le_inv in M1, T1, B1. apply Rabs_le. lra. }
  assert (K2 : Rabs (2 * (tau - (- B + z) / 2)) <= 72 * u + Rabs (sg - z)) by (rewrite Ex; eapply Rle_trans; [apply Rabs_triang|]; lra).
  rewrite Rabs_mult, (Rabs_pos_eq 2) in K2 by lra.
  assert (K3 : 2 * Rabs (tau - (- B + z) / 2) * sqrt D <= (72 * u + Rabs (sg - z)) * sqrt D) by (apply Rmult_le_compat_r; lra).
  assert (K4 : u * sqrt D <= u * 2) by (apply Rmult_le_compat_l; lra). lra.
Qed.
End QD.

(** ** Operations in units of given lengths *)
Section OPS.
Context {p e : Z} {Hp : Prec_gt_0 p} {He : Prec_lt_emax p e}.
Notation bf := (binary_float p e).
Notation rnd := (rndf p e).
Notation fadd := (@Bplus p e Hp He mode_NE).
Notation fsub := (@Bminus p e Hp He mode_NE).
Notation fmul := (@Bmult p e Hp He mode_NE).
Notation fdiv := (@Bdiv p e Hp He mode_NE).
Notation fsqrt := (@Bsqrt p e Hp He mode_NE).
Notation u := (uround p).
Notation eta := (uflow p e).
Notation zero := (B754_zero false : bf).
Context (fc fs fa : bf -> bf) (fpi : bf).
Let S := IEEE p e Hp He fc fs fa fpi.

Lemma rnd_below x k : (3 - e - p <= k)%Z -> Rabs x <= bpow radix2 k -> Rabs (rnd x) <= bpow radix2 k.
Proof. intros Hk Hx. rewrite <- rnd_abs, <- (rnd_id (p := p) (e := e) (bpow radix2 k)) by (apply fmt_pow; exact Hk). apply rnd_le. exact Hx. Qed.
Lemma rnd_small x : Rabs x <= bpow radix2 (e - 1) -> Rabs (rnd x) < bpow radix2 e.
Proof.
  intros Hx. pose proof (@emax_pos p e Hp He) as E. assert (Hp0 : (0 < p)%Z) by exact Hp. assert (He0 : (p < e)%Z) by exact He.
  eapply Rle_lt_trans; [apply (rnd_below x (e - 1) ltac:(lia) Hx)|apply bpow_lt; lia].
Qed.
Lemma div_abs x s : 0 < s -> Rabs (x / s) = Rabs x / s.
Proof. intros H. unfold Rdiv. rewrite Rabs_mult, Rabs_inv, (Rabs_pos_eq s) by lra. reflexivity. Qed.
Lemma div_le x s m : 0 < s -> x <= m * s -> x / s <= m.
Proof. intros H K. unfold Rdiv. apply Rmult_le_reg_r with s; [exact H|]. rewrite Rmult_assoc, Rinv_l by lra. lra. Qed.

Lemma mul_n (x y : bf) s t : 0 < s -> 0 < t -> fin x -> fin y -> eta <= u * (s * t) -> Rabs (B2R x * B2R y) <= bpow radix2 (e - 1) ->
  fin (fmul x y) /\ Rabs (B2R (fmul x y) / (s * t) - B2R x / s * (B2R y / t)) <= u * Rabs (B2R x / s * (B2R y / t)) + u.
Proof.
  intros Hs Ht Fx Fy Hh Hb. destruct (mul_ok x y Fx Fy (rnd_small _ Hb)) as (F & E). split; [exact F|]. rewrite E.
  pose proof (@rnd_near p e Hp (B2R x * B2R y)) as K. change (@ProofFloatErr.eta p e) with eta in K.
  assert (st : 0 < s * t) by (apply Rmult_lt_0_compat; assumption).
  replace (B2R x / s * (B2R y / t)) with ((B2R x * B2R y) / (s * t)) by (field; lra).
  replace (rnd (B2R x * B2R y) / (s * t) - B2R x * B2R y / (s * t)) with ((rnd (B2R x * B2R y) - B2R x * B2R y) / (s * t)) by (field; lra).
  rewrite !div_abs by exact st. apply div_le; [exact st|].
  replace ((u * (Rabs (B2R x * B2R y) / (s * t)) + u) * (s * t)) with (u * Rabs (B2R x * B2R y) + u * (s * t)) by (field; lra). lra.
Qed.
Lemma sum_n (x y : bf) s : 0 < s -> fin x -> fin y -> Rabs (B2R x + B2R y) <= bpow radix2 (e - 1) ->
  fin (fadd x y) /\ Rabs (B2R (fadd x y) / s - (B2R x / s + B2R y / s)) <= u * Rabs (B2R x / s + B2R y / s).
Proof.
  intros Hs Fx Fy Hb. destruct (add_ok x y Fx Fy (rnd_small _ Hb)) as (F & E). split; [exact F|]. rewrite E.
  pose proof (@rnd_sum p e Hp (B2R x) (B2R y) (B2R_fmt _) (B2R_fmt _)) as K.
  replace (B2R x / s + B2R y / s) with ((B2R x + B2R y) / s) by (field; lra).
  replace (rnd (B2R x + B2R y) / s - (B2R x + B2R y) / s) with ((rnd (B2R x + B2R y) - (B2R x + B2R y)) / s) by (field; lra).
  rewrite !div_abs by exact Hs. apply div_le; [exact Hs|]. replace (u * (Rabs (B2R x + B2R y) / s) * s) with (u * Rabs (B2R x + B2R y)) by (field; lra). lra.
Qed.
Lemma diff_n (x y : bf) s : 0 < s -> fin x -> fin y -> Rabs (B2R x - B2R y) <= bpow radix2 (e - 1) ->
  fin (fsub x y) /\ Rabs (B2R (fsub x y) / s - (B2R x / s - B2R y / s)) <= u * Rabs (B2R x / s - B2R y / s).
Proof.
  intros Hs Fx Fy Hb. destruct (sub_ok x y Fx Fy (rnd_small _ Hb)) as (F & E). split; [exact F|]. rewrite E.
  pose proof (@rnd_sum p e Hp (B2R x) (- B2R y) (B2R_fmt _) (generic_format_opp _ _ _ (B2R_fmt _))) as K. change (B2R x + - B2R y) with (B2R x - B2R y) in K.
  replace (B2R x / s - B2R y / s) with ((B2R x - B2R y) / s) by (field; lra).
  replace (rnd (B2R x - B2R y) / s - (B2R x - B2R y) / s) with ((rnd (B2R x - B2R y) - (B2R x - B2R y)) / s) by (field; lra).
  rewrite !div_abs by exact Hs. apply div_le; [exact Hs|]. replace (u * (Rabs (B2R x - B2R y) / s) * s) with (u * Rabs (B2R x - B2R y)) by (field; lra). lra.
Qed.
(** the unit of the quotient is [s / t] *)
Lemma quot_n (x y : bf) s t : 0 < s -> 0 < t -> fin x -> B2R y <> 0 -> eta * t <= u * s -> Rabs (B2R x / B2R y) <= bpow radix2 (e - 1) ->
  fin (fdiv x y) /\ Rabs (B2R (fdiv x y) * t / s - B2R x / s / (B2R y / t)) <= u * Rabs (B2R x / s / (B2R y / t)) + u.
Proof.
  intros Hs Ht Fx Ny Hh Hb. destruct (div_ok x y Fx Ny (rnd_small _ Hb)) as (F & E). split; [exact F|]. rewrite E.
  pose proof (@rnd_near p e Hp (B2R x / B2R y)) as K. change (@ProofFloatErr.eta p e) with eta in K.
  set (z := B2R x / B2R y) in *. assert (ts : 0 < s / t) by (apply Rdiv_lt_0_compat; assumption).
  replace (B2R x / s / (B2R y / t)) with (z / (s / t)) by (unfold z; field; repeat split; lra || exact Ny).
  replace (rnd z * t / s - z / (s / t)) with ((rnd z - z) / (s / t)) by (field; lra).
  rewrite !div_abs by exact ts. apply div_le; [exact ts|].
  replace ((u * (Rabs z / (s / t)) + u) * (s / t)) with (u * Rabs z + u * s / t) by (field; lra).
  assert (eta <= u * s / t). { apply Rmult_le_reg_r with t; [exact Ht|]. replace (u * s / t * t) with (u * s) by (field; lra). exact Hh. } lra.
Qed.

(** multiplication by two is exact *)
Lemma fmt_double x : generic_format radix2 (fexpf p e) x -> generic_format radix2 (fexpf p e) (2 * x).
Proof.
  intros Hx. unfold fexpf in *. apply FLT_format_generic in Hx; [|exact Hp]. destruct Hx as [f Ef Hm He'].
  apply generic_format_FLT. exists (Float radix2 (Fnum f) (Fexp f + 1)); cbn [Fnum Fexp]; [|exact Hm|lia].
  rewrite Ef. unfold F2R. cbn [Fnum Fexp]. rewrite bpow_plus. change (bpow radix2 1) with 2. ring.
Qed.
Definition ftwo : bf := fadd (@s1 S) (@s1 S).
Definition ffour : bf := fadd ftwo ftwo.
Lemma plus_double (x : bf) X : (3 <= e)%Z -> fin x -> B2R x = X -> Rabs (2 * X) <= bpow radix2 (e - 1) -> fin (fadd x x) /\ B2R (fadd x x) = 2 * X.
Proof.
  intros He3 Fx Ex Hb. assert (Z : B2R x + B2R x = 2 * X) by lra.
  destruct (add_ok x x Fx Fx) as (F & E); [rewrite Z; apply rnd_small, Hb|]. split; [exact F|]. rewrite E, Z. apply rnd_id. apply fmt_double. rewrite <- Ex. apply B2R_fmt.
Qed.
Lemma two_spec : (5 <= e)%Z -> fin ftwo /\ B2R ftwo = 2.
Proof.
  intros H. destruct (@one_spec p e Hp He) as (F & E). change (ieee_pow p e Hp He 1 0) with (@s1 S) in F, E.
  destruct (plus_double _ 1 ltac:(lia) F E) as (F2 & E2).
  - rewrite Rabs_pos_eq by lra. apply Rle_trans with (bpow radix2 2); [cbn; lra|apply bpow_le; lia].
  - split; [exact F2|]. unfold ftwo. rewrite E2. ring.
Qed.
Lemma four_spec : (5 <= e)%Z -> fin ffour /\ B2R ffour = 4.
Proof.
  intros H. destruct (two_spec H) as (F & E). destruct (plus_double _ 2 ltac:(lia) F E) as (F2 & E2).
  - rewrite Rabs_pos_eq by lra. apply Rle_trans with (bpow radix2 2); [cbn; lra|apply bpow_le; lia].
  - split; [exact F2|]. unfold ffour. rewrite E2. ring.
Qed.
Lemma mul_two (x : bf) : (5 <= e)%Z -> fin x -> Rabs (2 * B2R x) <= bpow radix2 (e - 1) -> fin (fmul ftwo x) /\ B2R (fmul ftwo x) = 2 * B2R x.
Proof.
  intros H Fx Hb. destruct (two_spec H) as (F & E). destruct (mul_ok ftwo x F Fx) as (F2 & E2); [rewrite E; apply rnd_small, Hb|].
  split; [exact F2|]. rewrite E2, E. apply rnd_id, fmt_double, B2R_fmt.
Qed.
Lemma mul_four (x : bf) : (5 <= e)%Z -> fin x -> Rabs (4 * B2R x) <= bpow radix2 (e - 1) -> fin (fmul ffour x) /\ B2R (fmul ffour x) = 4 * B2R x.
Proof.
  intros H Fx Hb. destruct (four_spec H) as (F & E). destruct (mul_ok ffour x F Fx) as (F2 & E2); [rewrite E; apply rnd_small, Hb|].
  split; [exact F2|]. rewrite E2, E. replace (4 * B2R x) with (2 * (2 * B2R x)) by ring. apply rnd_id, fmt_double, fmt_double, B2R_fmt.
Qed.
(** a square root is never subnormal, unless zero *)
Lemma sqrt_n (x : bf) s : 0 < s -> fin x -> 0 < B2R x -> fin (fsqrt x) /\ 0 <= B2R (fsqrt x) /\
  Rabs (B2R (fsqrt x) / s - sqrt (B2R x / (s * s))) <= u * sqrt (B2R x / (s * s)).
Proof.
  intros Hs Fx Px. assert (Sx : Bsign x = false).
  { destruct x as [sx|sx| |sx mx ex Hx]; cbn in Px |- *; try lra; try discriminate. destruct sx; [|reflexivity]. exfalso.
    assert (F2R (Float radix2 (Z.neg mx) ex) <= 0); [|cbn in Px; unfold F2R in *; cbn in *; lra]. apply F2R_le_0. cbn. lia. }
  destruct (sqrt_spec x) as [(E & _)|(_ & L1 & L2 & _)].
  { right. split; [exact Fx|]. split; [lra|exact Sx]. }
  { rewrite E in Fx. discriminate Fx. }
  split; [exact L1|]. split; [rewrite L2; apply rnd_nonneg, sqrt_pos|].
  assert (q0 : 0 <= sqrt (B2R x)) by apply sqrt_pos.
  assert (Hl : Rabs (rnd (sqrt (B2R x)) - sqrt (B2R x)) <= u * sqrt (B2R x)).
  { rewrite <- (Rabs_pos_eq (sqrt (B2R x))) at 3 by exact q0. apply rnd_normal. rewrite Rabs_pos_eq by exact q0.
    assert (G : bpow radix2 (3 - e - p) <= B2R x).
    { apply (generic_format_ge_bpow radix2 (fexpf p e) (3 - e - p)); [intros z; unfold fexpf, FLT_exp; lia|exact Px|apply B2R_fmt]. }
    pose proof (@emax_pos p e Hp He) as Hpe.
    rewrite <- (sqrt_square (bpow radix2 (2 - e))) by apply bpow_ge_0. apply sqrt_le_1_alt. rewrite <- bpow_plus. eapply Rle_trans; [|exact G]. apply bpow_le. assert (He0 : (p < e)%Z) by exact He. lia. }
  assert (ss : 0 < s * s) by (apply Rmult_lt_0_compat; lra).
  assert (E : sqrt (B2R x / (s * s)) = sqrt (B2R x) / s).
  { rewrite sqrt_div_alt by exact ss. rewrite sqrt_square by lra. reflexivity. }
  rewrite E, L2. replace (rnd (sqrt (B2R x)) / s - sqrt (B2R x) / s) with ((rnd (sqrt (B2R x)) - sqrt (B2R x)) / s) by (field; lra).
  rewrite div_abs by exact Hs. unfold Rdiv. rewrite <- Rmult_assoc. apply Rmult_le_compat_r; [left; apply Rinv_0_lt_compat, Hs|exact Hl].
Qed.

(** the scalar product of two approximations *)
Lemma dot_two (x y : vec bf 3) (X Y : vec R 3) : u <= 1 / 1024 -> finite_pt x -> finite_pt y ->
  rdist (vreal x) X <= u * rnorm X -> rdist (vreal y) Y <= u * rnorm Y -> rnorm X * rnorm Y <= bpow radix2 (e - 3) ->
  fin (@dot S 3 x y) /\ Rabs (B2R (@dot S 3 x y : bf) - rdot X Y) <= 64 / 10 * u * (rnorm X * rnorm Y) + 32 / 10 * eta.
Proof.
  intros Hu1 Fx Fy Hx Hy HM. pose proof (@u_pos p) as Hu.
  assert (N : forall (v : vec bf 3) V, rdist (vreal v) V <= u * rnorm V -> rnorm (vreal v) <= (1 + u) * rnorm V).
  { intros v V H. replace (vreal v) with (radd V (rsub (vreal v) V)) by apply radd_rsub. eapply Rle_trans; [apply rnorm_triangle|]. unfold rdist in H. lra. }
  pose proof (N x X Hx) as Nx. pose proof (N y Y Hy) as Ny. pose proof (rnorm_nonneg X) as X0. pose proof (rnorm_nonneg Y) as Y0.
  set (A := rnorm X) in *. set (B := rnorm Y) in *. assert (AB : 0 <= A * B) by (apply Rmult_le_pos; assumption).
  assert (M : rnorm (vreal x) * rnorm (vreal y) <= (1 + u) * A * ((1 + u) * B)) by (apply Rmult_le_compat; try apply rnorm_nonneg; assumption).
  assert (uu : (1 + u) * (1 + u) <= 1002 / 1000). { assert (u * u <= 1 / 1024 * u) by (apply Rmult_le_compat_r; lra). assert (u * u <= 1 / 1024 * (1 / 1024)) by lra. lra. }
  assert (M2 : rnorm (vreal x) * rnorm (vreal y) <= 1002 / 1000 * (A * B)).
  { eapply Rle_trans; [exact M|]. replace ((1 + u) * A * ((1 + u) * B)) with ((1 + u) * (1 + u) * (A * B)) by ring. apply Rmult_le_compat_r; [exact AB|exact uu]. }
  assert (E2 : bpow radix2 (e - 2) = 2 * bpow radix2 (e - 3)) by (replace (e - 2)%Z with (1 + (e - 3))%Z by lia; rewrite bpow_plus; reflexivity).
  assert (F : fin (@dot S 3 x y)).
  { apply (dot_err fc fs fa fpi 3 x y); [cbn; lra|exact Fx|exact Fy|]. eapply Rle_trans; [apply absdot_norms|]. lra. }
  split; [exact F|]. pose proof (dot3_err fc fs fa fpi x y ltac:(lra) F) as K. change (@ProofFloatErr.eta p e) with eta in K. fold S in K.
  set (v := B2R (@dot S 3 x y : bf)) in *.
  assert (D1 : Rabs (rdot (vreal x) (vreal y) - rdot X Y) <= 202 / 100 * u * (A * B)).
  { replace (rdot (vreal x) (vreal y) - rdot X Y) with (rdot (rsub (vreal x) X) (vreal y) + rdot X (rsub (vreal y) Y)) by (clear; vring).
    eapply Rle_trans; [apply Rabs_triang|].
    assert (T1 : Rabs (rdot (rsub (vreal x) X) (vreal y)) <= u * A * ((1 + u) * B)) by (eapply Rle_trans; [apply cauchy_schwarz|]; apply Rmult_le_compat; try apply rnorm_nonneg; [exact Hx|exact Ny]).
    assert (T2 : Rabs (rdot X (rsub (vreal y) Y)) <= A * (u * B)) by (eapply Rle_trans; [apply cauchy_schwarz|]; apply Rmult_le_compat_l; [exact X0|exact Hy]).
    assert (uAB : u * (u * (A * B)) <= 1 / 1024 * (u * (A * B))) by (apply Rmult_le_compat_r; [apply Rmult_le_pos; lra|lra]).
    assert (0 <= u * (A * B)) by (apply Rmult_le_pos; lra). lra. }
  assert (K2 : 42 / 10 * u * (rnorm (vreal x) * rnorm (vreal y)) <= 42 / 10 * u * (1002 / 1000 * (A * B))) by (apply Rmult_le_compat_l; lra).
  assert (0 <= u * (A * B)) by (apply Rmult_le_pos; lra).
  replace (v - rdot X Y) with ((v - rdot (vreal x) (vreal y)) + (rdot (vreal x) (vreal y) - rdot X Y)) by ring.
  eapply Rle_trans; [apply Rabs_triang|]. lra.
Qed.
End OPS.

(** ** The scene *)
Section SP.
Context {p e : Z} {Hp : Prec_gt_0 p} {He : Prec_lt_emax p e}.
Notation bf := (binary_float p e).
Notation rnd := (rndf p e).
Notation fadd := (@Bplus p e Hp He mode_NE).
Notation fsub := (@Bminus p e Hp He mode_NE).
Notation fmul := (@Bmult p e Hp He mode_NE).
Notation fdiv := (@Bdiv p e Hp He mode_NE).
Notation fsqrt := (@Bsqrt p e Hp He mode_NE).
Notation u := (uround p).
Notation eta := (uflow p e).
Notation zero := (B754_zero false : bf).
Context (fc fs fa : bf -> bf) (fpi : bf).
Let S := IEEE p e Hp He fc fs fa fpi.
Notation two := (ftwo fc fs fa fpi).
Notation four := (ffour fc fs fa fpi).
Context (Hu1 : 1024 * u <= 1).
Context (cen o sd : vec bf 3) (r : bf) (d : vec R 3) (Hd : rdist (vreal sd) d <= u * rnorm d).
Context (Fc : finite_pt cen) (Fo : finite_pt o) (Fs : finite_pt sd) (Fr : fin r).
Context (HS : sphere_scene e (vreal cen) (B2R r) (vreal o) d).
Let w := rsub (vreal o) (vreal cen).
Let W := rnorm w.
Let L := rnorm d.
Let Rr := Rabs (B2R r).
Let G := reach (vreal cen) (B2R r) (vreal o).
Let wh := @vsub S 3 o cen : vec bf 3.
Let a := @dot S 3 sd sd : bf.
Let dd := @dot S 3 sd wh : bf.
Let ww := @dot S 3 wh wh : bf.
Let b := fmul two dd.
Let cc := fsub ww (fmul r r).
Let disc := fsub (fmul b b) (fmul (fmul four a) cc).

Lemma sp_u : 0 < u <= 1 / 1024.
Proof. pose proof (@u_pos p) as H. pose proof Hu1. lra. Qed.
Lemma sp_e : (11 <= e)%Z.
Proof.
  assert (Q : u <= bpow radix2 (-10)) by (pose proof sp_u; cbn; lra). apply le_bpow in Q. assert (He0 : (p < e)%Z) by exact He. lia.
Qed.
Lemma sp_G : G = W + Rr. Proof. reflexivity. Qed.
Lemma sp_W : 0 <= W. Proof. apply rnorm_nonneg. Qed.
Lemma sp_LL : rdot d d = L * L. Proof. unfold L. symmetry. apply rnorm_sq. Qed.
Lemma sp_RR : B2R r * B2R r = Rr * Rr.
Proof. unfold Rr. rewrite <- Rabs_mult. symmetry. apply Rabs_pos_eq, Rle_0_sqr. Qed.
Lemma sp_scene : bpow radix2 (2 - e) <= L * L <= bpow radix2 (e - 6) /\ bpow radix2 (2 - e) <= Rr * Rr /\ bpow radix2 (2 - e) <= L * L * (Rr * Rr) /\
  G * G <= bpow radix2 (e - 6) /\ L * L * (G * G) <= bpow radix2 (e - 6) /\ rnorm (vreal o) <= bpow radix2 (e - 3).
Proof. pose proof HS as K. unfold sphere_scene in K. rewrite sp_LL, sp_RR in K. exact K. Qed.
Lemma sq_pos x : 0 <= x -> 0 < x * x -> 0 < x.
Proof. intros H K. destruct (Req_dec x 0) as [->|N]; lra. Qed.
Lemma sp_pos : 0 < L /\ 0 < Rr /\ Rr <= G /\ 0 < G.
Proof.
  destruct sp_scene as (K1 & K2 & _). pose proof (bpow_gt_0 radix2 (2 - e)) as B0. pose proof sp_W.
  assert (0 < L) by (apply sq_pos; [apply rnorm_nonneg|lra]). assert (0 < Rr) by (apply sq_pos; [apply Rabs_pos|lra]). rewrite sp_G. repeat split; lra.
Qed.
Lemma sp_eta : eta = u * bpow radix2 (2 - e).
Proof. unfold uflow, uround. rewrite <- bpow_plus. f_equal. lia. Qed.
Lemma sp_under : eta <= u * (L * L) /\ eta <= u * (G * G) /\ eta <= u * (L * G) /\ eta <= u * (L * G * (L * G)) /\ eta * L <= u * G.
Proof.
  destruct sp_scene as (K1 & K2 & K3 & _). destruct sp_pos as (L0 & R0 & RG & G0). pose proof sp_u as Hu. pose proof sp_e as E5. rewrite sp_eta.
  set (B := bpow radix2 (2 - e)) in *. assert (B0 : 0 < B) by apply bpow_gt_0.
  assert (GR : Rr * Rr <= G * G) by (apply Rmult_le_compat; lra).
  assert (LG : L * L * (Rr * Rr) <= L * G * (L * G)). { replace (L * G * (L * G)) with (L * L * (G * G)) by ring. apply Rmult_le_compat_l; [|exact GR]. apply Rmult_le_pos; lra. }
  assert (B1 : B <= 1) by (change 1 with (bpow radix2 0); apply bpow_le; lia).
  assert (BB : B * B <= 1 * B) by (apply Rmult_le_compat_r; lra).
  assert (BLG : B <= L * G). { assert (Rabs B <= L * G); [|rewrite Rabs_pos_eq in *; lra]. apply abs_le_of_sq; [apply Rmult_le_pos; lra|lra]. }
  assert (BL : B * L <= G).
  { assert (0 <= B * L) by (apply Rmult_le_pos; lra). assert (Rabs (B * L) <= G); [|rewrite Rabs_pos_eq in *; lra]. apply abs_le_of_sq; [lra|].
    replace (B * L * (B * L)) with (B * B * (L * L)) by ring.
    assert (B * B * (L * L) <= B * B * bpow radix2 (e - 6)) by (apply Rmult_le_compat_l; [apply Rmult_le_pos; lra|lra]).
    assert (B * B * bpow radix2 (e - 6) <= B); [|lra]. unfold B. rewrite <- !bpow_plus. apply bpow_le. lia. }
  repeat split; try (apply Rmult_le_compat_l; lra).
  rewrite Rmult_assoc. apply Rmult_le_compat_l; lra.
Qed.
Lemma sp_over : L * L <= bpow radix2 (e - 6) /\ L * G <= bpow radix2 (e - 6) /\ G * G <= bpow radix2 (e - 6) /\ L * G * (L * G) <= bpow radix2 (e - 6) /\
  G <= bpow radix2 (e - 6) /\ G / L <= bpow radix2 (e - 4).
Proof.
  destruct sp_scene as (K1 & K2 & K3 & K4 & K5 & _). destruct sp_pos as (L0 & R0 & RG & G0). pose proof sp_e as E5.
  set (B := bpow radix2 (e - 6)) in *. assert (B1 : 1 <= B) by (change 1 with (bpow radix2 0); apply bpow_le; lia).
  assert (BB : 1 * B <= B * B) by (apply Rmult_le_compat_r; lra).
  assert (LG : L * G * (L * G) <= B) by (replace (L * G * (L * G)) with (L * L * (G * G)) by ring; exact K5).
  split; [lra|]. split.
  { assert (Rabs (L * G) <= B); [apply abs_le_of_sq; lra|]. rewrite Rabs_pos_eq in *; [lra|apply Rmult_le_pos; lra]. }
  split; [lra|]. split; [lra|]. split.
  { assert (Rabs G <= B); [apply abs_le_of_sq; lra|]. rewrite Rabs_pos_eq in *; lra. }
  assert (C0 : 0 < bpow radix2 (e - 4)) by apply bpow_gt_0.
  apply Rmult_le_reg_r with L; [exact L0|]. replace (G / L * L) with G by (field; lra).
  assert (Rabs G <= bpow radix2 (e - 4) * L); [|rewrite Rabs_pos_eq in *; lra]. apply abs_le_of_sq; [apply Rmult_le_pos; lra|].
  replace (bpow radix2 (e - 4) * L * (bpow radix2 (e - 4) * L)) with (bpow radix2 (e - 4) * bpow radix2 (e - 4) * (L * L)) by ring.
  apply Rle_trans with (bpow radix2 (e - 4) * bpow radix2 (e - 4) * bpow radix2 (2 - e)); [|apply Rmult_le_compat_l; [apply Rmult_le_pos; lra|lra]].
  eapply Rle_trans; [exact K4|]. unfold B. rewrite <- !bpow_plus. apply bpow_le. lia.
Qed.
Lemma sp_big : bpow radix2 (e - 1) = 32 * bpow radix2 (e - 6) /\ bpow radix2 (e - 3) = 8 * bpow radix2 (e - 6) /\ bpow radix2 (e - 2) = 16 * bpow radix2 (e - 6) /\ bpow radix2 (e - 1) = 8 * bpow radix2 (e - 4).
Proof.
  repeat split.
  - replace (e - 1)%Z with (5 + (e - 6))%Z by lia. rewrite bpow_plus. reflexivity.
  - replace (e - 3)%Z with (3 + (e - 6))%Z by lia. rewrite bpow_plus. reflexivity.
  - replace (e - 2)%Z with (4 + (e - 6))%Z by lia. rewrite bpow_plus. reflexivity.
  - replace (e - 1)%Z with (3 + (e - 4))%Z by lia. rewrite bpow_plus. reflexivity.
Qed.

Lemma sp_wh : finite_pt wh /\ rdist (vreal wh) w <= u * rnorm w.
Proof.
  destruct sp_over as (_ & _ & _ & _ & K & _). destruct sp_big as (_ & _ & B2 & _). pose proof sp_u. pose proof sp_pos. pose proof (bpow_gt_0 radix2 (e - 6)).
  assert (F : finite_pt wh). { apply (sub_finite_near fc fs fa fpi 3 o cen); [lra|exact Fo|exact Fc|]. change (W <= bpow radix2 (e - 2)). rewrite sp_G in K. pose proof sp_W. lra. }
  split; [exact F|]. exact (sub_err fc fs fa fpi 3 o cen Fo Fc F).
Qed.

(** the computed coefficients, in units *)
Let al := B2R a / (L * L).
Let d0 := B2R dd / (L * G).
Let wn := B2R ww / (G * G).
Let rr := B2R (fmul r r) / (G * G).
Let ga := B2R cc / (G * G).
Let bb := B2R (fmul b b) / (L * G * (L * G)).
Let ac := B2R (fmul (fmul four a) cc) / (L * L * (G * G)).
Let de := B2R disc / (L * L * (G * G)).
Let P := rdot d w / (L * G).
Let V := W * W / (G * G).
Let Q := Rr * Rr / (G * G).

Lemma in_units (x X s k : R) : 0 < s -> Rabs (x - X) <= k * s -> Rabs (x / s - X / s) <= k.
Proof. intros H K. replace (x / s - X / s) with ((x - X) / s) by (field; lra). rewrite div_abs by exact H. apply div_le; assumption. Qed.
Lemma abs_units (x s k : R) : 0 < s -> Rabs x <= k * s -> Rabs (x / s) <= k.
Proof. intros H K. rewrite div_abs by exact H. apply div_le; assumption. Qed.
Lemma of_units (x s k : R) : 0 < s -> Rabs (x / s) <= k -> Rabs x <= k * s.
Proof. intros H K. replace x with (x / s * s) by (field; lra). rewrite Rabs_mult, (Rabs_pos_eq s) by lra. apply Rmult_le_compat_r; lra. Qed.

Lemma sp_PVQ : Rabs P <= 1 /\ P * P <= V /\ 0 <= V <= 1 /\ 0 <= Q <= 1.
Proof.
  destruct sp_pos as (L0 & R0 & RG & G0). pose proof sp_W as W0. assert (WG : W <= G) by (rewrite sp_G; lra).
  assert (LG : 0 < L * G) by (apply Rmult_lt_0_compat; lra). assert (GG : 0 < G * G) by (apply Rmult_lt_0_compat; lra).
  assert (CS : Rabs (rdot d w) <= L * W) by apply cauchy_schwarz.
  assert (LW : 0 <= L * W) by (apply Rmult_le_pos; lra).
  split. { apply abs_units; [exact LG|]. assert (L * W <= L * G) by (apply Rmult_le_compat_l; lra). lra. }
  split.
  { unfold P, V. replace (rdot d w / (L * G) * (rdot d w / (L * G))) with (rdot d w * rdot d w / (L * L) / (G * G)) by (field; lra).
    apply Rmult_le_compat_r; [left; apply Rinv_0_lt_compat, GG|]. apply div_le; [apply Rmult_lt_0_compat; lra|].
    replace (W * W * (L * L)) with (L * W * (L * W)) by ring.
    replace (rdot d w * rdot d w) with (Rabs (rdot d w) * Rabs (rdot d w)) by (rewrite <- Rabs_mult; apply Rabs_pos_eq, Rle_0_sqr).
    apply Rmult_le_compat; try apply Rabs_pos; exact CS. }
  assert (I : 0 < / (G * G)) by apply Rinv_0_lt_compat, GG.
  split; split.
  - apply Rmult_le_pos; [apply Rmult_le_pos; lra|lra].
  - apply div_le; [exact GG|]. rewrite Rmult_1_l. apply Rmult_le_compat; lra.
  - apply Rmult_le_pos; [apply Rmult_le_pos; lra|lra].
  - apply div_le; [exact GG|]. rewrite Rmult_1_l. apply Rmult_le_compat; lra.
Qed.
Lemma sp_al : fin a /\ Rabs (al - 1) <= 10 * u.
Proof.
  destruct sp_pos as (L0 & _). destruct sp_over as (K & _). destruct sp_big as (_ & B & _). destruct sp_under as (U & _). pose proof (bpow_gt_0 radix2 (e - 6)) as B0. pose proof sp_u as Hu.
  destruct (dot_two fc fs fa fpi sd sd d d ltac:(lra) Fs Fs Hd Hd) as (F & E); [fold L; lra|]. fold S in F, E. fold a in F, E. fold L in E. rewrite sp_LL in E.
  split; [exact F|]. assert (LL : 0 < L * L) by (apply Rmult_lt_0_compat; lra). assert (0 < u * (L * L)) by (apply Rmult_lt_0_compat; lra).
  unfold al. replace 1 with (L * L / (L * L)) by (field; lra). apply in_units; [exact LL|]. lra.
Qed.
Lemma sp_d0 : fin dd /\ Rabs (d0 - P) <= 10 * u.
Proof.
  destruct sp_pos as (L0 & _ & _ & G0). destruct sp_over as (_ & K & _). destruct sp_big as (_ & B & _). destruct sp_under as (_ & _ & U & _). pose proof (bpow_gt_0 radix2 (e - 6)) as B0. pose proof sp_u as Hu.
  destruct sp_wh as (Fw & Ew). pose proof sp_W as W0. assert (WG : W <= G) by (rewrite sp_G; pose proof sp_pos; lra).
  assert (LW : L * W <= L * G) by (apply Rmult_le_compat_l; lra).
  destruct (dot_two fc fs fa fpi sd wh d w ltac:(lra) Fs Fw Hd Ew) as (F & E); [fold L W; lra|]. fold S in F, E. fold dd in F, E. fold L W in E.
  split; [exact F|]. assert (LG : 0 < L * G) by (apply Rmult_lt_0_compat; lra). assert (0 < u * (L * G)) by (apply Rmult_lt_0_compat; lra).
  assert (u * (L * W) <= u * (L * G)) by (apply Rmult_le_compat_l; lra).
  apply in_units; [exact LG|]. lra.
Qed.
Lemma sp_ww : fin ww /\ Rabs (wn - V) <= 10 * u.
Proof.
  destruct sp_pos as (_ & _ & _ & G0). destruct sp_over as (_ & _ & K & _). destruct sp_big as (_ & B & _). destruct sp_under as (_ & U & _). pose proof (bpow_gt_0 radix2 (e - 6)) as B0. pose proof sp_u as Hu.
  destruct sp_wh as (Fw & Ew). pose proof sp_W as W0. assert (WG : W <= G) by (rewrite sp_G; pose proof sp_pos; lra).
  assert (WW : W * W <= G * G) by (apply Rmult_le_compat; lra).
  destruct (dot_two fc fs fa fpi wh wh w w ltac:(lra) Fw Fw Ew Ew) as (F & E); [fold W; lra|]. fold S in F, E. fold ww in F, E. rewrite <- (rnorm_sq w) in E. fold W in E.
  split; [exact F|]. assert (GG : 0 < G * G) by (apply Rmult_lt_0_compat; lra). assert (0 < u * (G * G)) by (apply Rmult_lt_0_compat; lra).
  assert (u * (W * W) <= u * (G * G)) by (apply Rmult_le_compat_l; lra).
  apply in_units; [exact GG|]. lra.
Qed.
Lemma sp_rr : fin (fmul r r) /\ Rabs (rr - Q) <= 2 * u.
Proof.
  destruct sp_pos as (_ & R0 & RG & G0). destruct sp_over as (_ & _ & K & _). destruct sp_big as (B & _). destruct sp_under as (_ & U & _). pose proof (bpow_gt_0 radix2 (e - 6)) as B0. pose proof sp_u as Hu.
  assert (RR : Rr * Rr <= G * G) by (apply Rmult_le_compat; lra). assert (0 <= Rr * Rr) by (apply Rmult_le_pos; lra).
  destruct (mul_n r r G G G0 G0 Fr Fr U) as (F & E). { rewrite sp_RR, Rabs_pos_eq; lra. }
  split; [exact F|]. fold rr in E. replace (B2R r / G * (B2R r / G)) with Q in E. 2:{ unfold Q. rewrite <- sp_RR. field. lra. }
  destruct sp_PVQ as (_ & _ & _ & Q1). rewrite (Rabs_pos_eq Q) in E by lra. assert (u * Q <= u * 1) by (apply Rmult_le_compat_l; lra). lra.
Qed.
Lemma sp_cc : fin cc /\ Rabs (ga - (wn - rr)) <= u * Rabs (wn - rr).
Proof.
  destruct sp_pos as (_ & R0 & RG & G0). destruct sp_over as (_ & _ & K & _). destruct sp_big as (B & _). pose proof (bpow_gt_0 radix2 (e - 6)) as B0. pose proof sp_u as Hu.
  destruct sp_ww as (F1 & E1). destruct sp_rr as (F2 & E2). destruct sp_PVQ as (_ & _ & V1 & Q1). assert (GG : 0 < G * G) by (apply Rmult_lt_0_compat; lra).
  apply diff_n; [exact GG|exact F1|exact F2|]. 
  assert (Z : Rabs ((B2R ww - B2R (fmul r r)) / (G * G)) <= 2).
  { replace ((B2R ww - B2R (fmul r r)) / (G * G)) with (wn - rr) by (unfold wn, rr; field; lra). apply Rabs_le_inv in E1, E2. apply Rabs_le. lra. }
  apply of_units in Z; [|exact GG]. lra.
Qed.
Lemma sp_al' : Rabs al <= 2 /\ Rabs d0 <= 2.
Proof.
  destruct sp_al as (_ & E1). destruct sp_d0 as (_ & E2). destruct sp_PVQ as (P1 & _). pose proof sp_u. apply Rabs_le_inv in E1, E2, P1. split; apply Rabs_le; lra.
Qed.
Lemma sp_ga' : Rabs ga <= 102 / 100.
Proof.
  destruct sp_PVQ as (P1 & PV & V1 & Q1). exact (proj2 (qd_ga u V Q wn rr ga sp_u V1 Q1 (proj2 sp_ww) (proj2 sp_rr) (proj2 sp_cc))).
Qed.
Lemma sp_b : fin b /\ B2R b / (L * G) = 2 * d0.
Proof.
  destruct sp_pos as (L0 & _ & _ & G0). destruct sp_over as (_ & K & _). destruct sp_big as (B & _). pose proof (bpow_gt_0 radix2 (e - 6)) as B0. pose proof sp_e as E5.
  destruct sp_d0 as (F & _). destruct sp_al' as (_ & D2). assert (LG : 0 < L * G) by (apply Rmult_lt_0_compat; lra).
  destruct (mul_two fc fs fa fpi dd ltac:(lia) F) as (Fb & Eb).
  - apply of_units in D2; [|exact LG]. rewrite Rabs_mult, (Rabs_pos_eq 2) by lra. lra.
  - split; [exact Fb|]. unfold b. rewrite Eb. unfold d0. field. lra.
Qed.
Lemma sp_4a : fin (fmul four a) /\ B2R (fmul four a) / (L * L) = 4 * al /\ fin (fmul two a) /\ B2R (fmul two a) / (L * L) = 2 * al.
Proof.
  destruct sp_pos as (L0 & _). destruct sp_over as (K & _). destruct sp_big as (B & _). pose proof (bpow_gt_0 radix2 (e - 6)) as B0. pose proof sp_e as E5.
  destruct sp_al as (F & _). destruct sp_al' as (D2 & _). assert (LL : 0 < L * L) by (apply Rmult_lt_0_compat; lra). apply of_units in D2; [|exact LL].
  destruct (mul_four fc fs fa fpi a ltac:(lia) F) as (F4 & E4); [rewrite Rabs_mult, (Rabs_pos_eq 4) by lra; lra|].
  destruct (mul_two fc fs fa fpi a ltac:(lia) F) as (F2 & E2); [rewrite Rabs_mult, (Rabs_pos_eq 2) by lra; lra|].
  split; [exact F4|]. split; [rewrite E4; unfold al; field; lra|]. split; [exact F2|]. rewrite E2; unfold al; field; lra.
Qed.
Lemma sp_bb : fin (fmul b b) /\ Rabs (bb - 2 * d0 * (2 * d0)) <= u * (2 * d0 * (2 * d0)) + u.
Proof.
  destruct sp_pos as (L0 & _ & _ & G0). destruct sp_over as (_ & _ & _ & K & _). destruct sp_big as (B & _). destruct sp_under as (_ & _ & _ & U & _). pose proof (bpow_gt_0 radix2 (e - 6)) as B0.
  destruct sp_b as (F & E). destruct sp_al' as (_ & D2). assert (LG : 0 < L * G) by (apply Rmult_lt_0_compat; lra).
  assert (A : Rabs (B2R b) <= 4 * (L * G)). { apply of_units; [exact LG|]. rewrite E, Rabs_mult, (Rabs_pos_eq 2) by lra. lra. }
  destruct (mul_n b b (L * G) (L * G) LG LG F F U) as (F2 & E2).
  { eapply Rle_trans; [apply (prod_bound _ _ _ _ A A)|]. lra. }
  split; [exact F2|]. rewrite E in E2. rewrite (Rabs_pos_eq (2 * d0 * (2 * d0))) in E2 by apply Rle_0_sqr. exact E2.
Qed.
Lemma sp_ac : fin (fmul (fmul four a) cc) /\ Rabs (ac - 4 * al * ga) <= u * Rabs (4 * al * ga) + u.
Proof.
  destruct sp_pos as (L0 & _ & _ & G0). destruct sp_over as (_ & _ & _ & K & _). destruct sp_big as (B & _). destruct sp_under as (_ & _ & _ & U & _). pose proof (bpow_gt_0 radix2 (e - 6)) as B0.
  destruct sp_4a as (F & E & _). destruct sp_al' as (D1 & _). pose proof sp_ga' as G1. assert (LL : 0 < L * L) by (apply Rmult_lt_0_compat; lra). assert (GG : 0 < G * G) by (apply Rmult_lt_0_compat; lra).
  assert (LGE : L * G * (L * G) = L * L * (G * G)) by ring. rewrite LGE in U, K.
  assert (A : Rabs (B2R (fmul four a)) <= 8 * (L * L)). { apply of_units; [exact LL|]. rewrite E, Rabs_mult, (Rabs_pos_eq 4) by lra. lra. }
  assert (A2 : Rabs (B2R cc) <= 102 / 100 * (G * G)) by (apply of_units; assumption).
  destruct (mul_n (fmul four a) cc (L * L) (G * G) LL GG F (proj1 sp_cc) U) as (F2 & E2).
  { eapply Rle_trans; [apply (prod_bound _ _ _ _ A A2)|]. lra. }
  split; [exact F2|]. rewrite E in E2. exact E2.
Qed.
Lemma sp_disc : fin disc /\ Rabs (de - (bb - ac)) <= u * Rabs (bb - ac).
Proof.
  destruct sp_pos as (L0 & _ & _ & G0). destruct sp_over as (_ & _ & _ & K & _). destruct sp_big as (B & _). pose proof (bpow_gt_0 radix2 (e - 6)) as B0. pose proof sp_u as Hu.
  destruct sp_bb as (F1 & E1). destruct sp_ac as (F2 & E2). assert (LL : 0 < L * L) by (apply Rmult_lt_0_compat; lra). assert (GG : 0 < G * G) by (apply Rmult_lt_0_compat; lra).
  assert (X : 0 < L * L * (G * G)) by (apply Rmult_lt_0_compat; lra). assert (LGE : L * G * (L * G) = L * L * (G * G)) by ring. rewrite LGE in K.
  destruct sp_PVQ as (P1 & PV & V1 & Q1).
  pose proof (qd_bebe u P d0 sp_u P1 (proj2 sp_d0)) as (_ & K1).
  pose proof (qd_alga u V Q al wn rr ga sp_u V1 Q1 (proj2 sp_al) (proj2 sp_ww) (proj2 sp_rr) (proj2 sp_cc)) as (_ & K2). cbv zeta in K1, K2.
  assert (Z : Rabs (bb - ac) <= 10).
  { assert (u * (2 * d0 * (2 * d0)) <= 1 / 1024 * (2 * d0 * (2 * d0))) by (apply Rmult_le_compat_r; lra).
    assert (u * Rabs (4 * al * ga) <= 1 / 1024 * Rabs (4 * al * ga)) by (apply Rmult_le_compat_r; [apply Rabs_pos|lra]). 
    apply Rabs_le_inv in E1, E2. pose proof (Rabs_le_inv _ _ K2). apply Rabs_le. lra. }
  unfold de, bb, ac in *. rewrite LGE in *. apply diff_n; [exact X|exact F1|exact F2|].
  replace (B2R (fmul b b) / (L * L * (G * G)) - B2R (fmul (fmul four a) cc) / (L * L * (G * G))) with ((B2R (fmul b b) - B2R (fmul (fmul four a) cc)) / (L * L * (G * G))) in Z by (field; lra).
  apply of_units in Z; [|exact X]. lra.
Qed.

Let B := 2 * P.
Let C := V - Q.
Let D := 4 * (P * P - (V - Q)).
Lemma sp_D : discr (vreal cen) (B2R r) (vreal o) d = D * (L * L * (G * G)).
Proof.
  destruct sp_pos as (L0 & _ & _ & G0). unfold discr. fold w. rewrite sp_LL, sp_RR. replace (rdot w w) with (W * W) by (unfold W; apply rnorm_sq).
  unfold D, P, V, Q. field. lra.
Qed.
Lemma sp_disc_err : fin disc /\ Rabs (B2R disc - discr (vreal cen) (B2R r) (vreal o) d) <= discr_bound p (vreal cen) (B2R r) (vreal o) d /\ Rabs (B2R disc) <= 419 / 100 * (L * L * (G * G)).
Proof.
  destruct sp_pos as (L0 & _ & _ & G0). destruct sp_disc as (F & E). split; [exact F|]. destruct sp_PVQ as (P1 & PV & V1 & Q1).
  destruct (qd_round u P V Q al d0 wn rr ga bb ac de sp_u P1 PV V1 Q1 (proj2 sp_al) (proj2 sp_d0) (proj2 sp_ww) (proj2 sp_rr) (proj2 sp_cc) (proj2 sp_bb) (proj2 sp_ac) E) as (_ & K & K2).
  assert (X : 0 < L * L * (G * G)) by (repeat apply Rmult_lt_0_compat; lra). pose proof sp_u as Hu.
  split; [|apply of_units; [exact X|exact K2]].
  rewrite sp_D. unfold discr_bound. rewrite sp_LL. fold G. replace (B2R disc) with (de * (L * L * (G * G))) by (unfold de; field; lra).
  rewrite <- Rmult_minus_distr_r, Rabs_mult, (Rabs_pos_eq (L * L * (G * G))) by lra. apply Rmult_le_compat_r; [lra|]. change (Rabs (de - D) <= 200 * u). change (Rabs (de - D) <= 190 * u) in K. lra.
Qed.

(** the roots: [x] is the computed [- b + s] or [- b - s] *)
Lemma sp_root (s x : bf) : 0 < B2R disc -> fin x -> Rabs (Rabs (B2R s) / (L * G) - sqrt de) <= u * sqrt de ->
  Rabs (B2R x / (L * G) - (- (2 * d0) + B2R s / (L * G))) <= u * Rabs (- (2 * d0) + B2R s / (L * G)) ->
  let T := fdiv x (fmul two a) in
  fin T /\ Rabs (B2R T * L / G * (B2R T * L / G) + B * (B2R T * L / G) + C) <= 140 * u /\ Rabs (B2R T * L / G) <= 208 / 100 /\
  forall z, Rabs z = sqrt D -> 0 < D -> 0 <= B2R s * z -> Rabs (B2R T * L / G - (- B + z) / 2) * sqrt D <= 180 * u.
Proof.
  intros D0 Fx Hs Hx T. destruct sp_pos as (L0 & _ & _ & G0). pose proof sp_u as Hu.
  assert (X : 0 < L * L * (G * G)) by (repeat apply Rmult_lt_0_compat; lra). assert (LG : 0 < L * G) by (apply Rmult_lt_0_compat; lra). assert (LL : 0 < L * L) by (apply Rmult_lt_0_compat; lra).
  assert (de0 : 0 < de) by (apply Rdiv_lt_0_compat; assumption).
  destruct sp_PVQ as (P1 & PV & V1 & Q1). destruct sp_4a as (_ & _ & F2a & E2a).
  pose proof (qd_al u al Hu (proj2 sp_al)) as A1.
  set (sg := B2R s / (L * G)) in *. set (nu := B2R x / (L * G)) in *.
  assert (Hsg : Rabs (Rabs sg - sqrt de) <= u * sqrt de) by (unfold sg; rewrite div_abs by exact LG; exact Hs).
  assert (HT : fin T /\ Rabs (B2R T * L / G - nu / (2 * al)) <= u * Rabs (nu / (2 * al)) + u).
  { destruct (quot_n x (fmul two a) (L * G) (L * L) LG LL Fx) as (FT & ET).
    - intros Z. rewrite Z in E2a. unfold Rdiv in E2a. lra.
    - destruct sp_under as (_ & _ & _ & _ & U). replace (eta * (L * L)) with (eta * L * L) by ring. replace (u * (L * G)) with (u * G * L) by ring. apply Rmult_le_compat_r; lra.
    - assert (N : Rabs (nu / (2 * al)) <= 3).
      { destruct (qd_sg u P V Q al d0 wn rr ga bb ac de Hu P1 PV V1 Q1 (proj2 sp_al) (proj2 sp_d0) (proj2 sp_ww) (proj2 sp_rr) (proj2 sp_cc) (proj2 sp_bb) (proj2 sp_ac) (proj2 sp_disc) sg Hsg de0) as (S1 & _).
        destruct (qd_be u P d0 Hu P1 (proj2 sp_d0)) as (_ & B1).
        assert (K1 : Rabs (- (2 * d0) + sg) <= 408 / 100) by (eapply Rle_trans; [apply Rabs_triang|]; rewrite Rabs_Ropp; lra).
        assert (K2 : u * Rabs (- (2 * d0) + sg) <= 1 / 1024 * Rabs (- (2 * d0) + sg)) by (apply Rmult_le_compat_r; [apply Rabs_pos|lra]).
        assert (K3 : Rabs nu <= 41 / 10).
        { replace nu with ((nu - (- (2 * d0) + sg)) + (- (2 * d0) + sg)) by ring. eapply Rle_trans; [apply Rabs_triang|]. lra. }
        rewrite div_abs by lra. apply div_le; lra. }
      replace (B2R x / B2R (fmul two a)) with (nu / (2 * al) * (G / L)).
      2:{ unfold nu. rewrite <- E2a. field. split; [|lra]. intros Z. rewrite Z in E2a. unfold Rdiv in E2a. lra. }
      assert (GL : 0 < G / L) by (apply Rdiv_lt_0_compat; lra). destruct sp_over as (_ & _ & _ & _ & _ & O). destruct sp_big as (_ & _ & _ & O2). pose proof (bpow_gt_0 radix2 (e - 4)).
      rewrite Rabs_mult, (Rabs_pos_eq (G / L)) by lra. apply Rle_trans with (3 * (G / L)); [apply Rmult_le_compat_r; lra|lra].
    - split; [exact FT|]. rewrite E2a in ET. fold nu T in ET. replace (B2R T * (L * L) / (L * G)) with (B2R T * L / G) in ET by (field; lra). exact ET. }
  destruct HT as (FT & ET). split; [exact FT|].
  pose proof (qd_residual u P V Q al d0 wn rr ga bb ac de Hu P1 PV V1 Q1 (proj2 sp_al) (proj2 sp_d0) (proj2 sp_ww) (proj2 sp_rr) (proj2 sp_cc) (proj2 sp_bb) (proj2 sp_ac) (proj2 sp_disc) sg nu _ Hsg de0 Hx ET) as K1.
  pose proof (qd_x0 u P V Q al d0 wn rr ga bb ac de Hu P1 PV V1 Q1 (proj2 sp_al) (proj2 sp_d0) (proj2 sp_ww) (proj2 sp_rr) (proj2 sp_cc) (proj2 sp_bb) (proj2 sp_ac) (proj2 sp_disc) sg nu _ Hsg de0 Hx ET) as (_ & _ & K2).
  split; [exact K1|]. split; [exact K2|]. intros z Hz Dpos Hsz.
  apply (qd_forward u P V Q al d0 wn rr ga bb ac de Hu P1 PV V1 Q1 (proj2 sp_al) (proj2 sp_d0) (proj2 sp_ww) (proj2 sp_rr) (proj2 sp_cc) (proj2 sp_bb) (proj2 sp_ac) (proj2 sp_disc) sg nu _ Hsg de0 Hx ET z Hz Dpos).
  unfold sg. replace (B2R s / (L * G) * z) with (B2R s * z * / (L * G)) by (field; lra). apply Rmult_le_pos; [exact Hsz|left; apply Rinv_0_lt_compat, LG].
Qed.

Lemma sp_along T : let x := rdist (along (vreal o) d T) (vreal cen) in
  x * x - Rr * Rr = G * G * (T * L / G * (T * L / G) + B * (T * L / G) + C).
Proof.
  cbv zeta. destruct sp_pos as (L0 & _ & _ & G0). unfold rdist. rewrite rnorm_sq.
  replace (rdot (rsub (along (vreal o) d T) (vreal cen)) (rsub (along (vreal o) d T) (vreal cen))) with (rdot w w + 2 * T * rdot d w + T * T * rdot d d).
  2:{ unfold w, along. clear. vring. }
  rewrite sp_LL. replace (rdot w w) with (W * W) by (unfold W; apply rnorm_sq). unfold B, C, P, V, Q. field. lra.
Qed.
Lemma sp_surface T : Rabs (T * L / G * (T * L / G) + B * (T * L / G) + C) <= 140 * u ->
  Rabs (rdist (along (vreal o) d T) (vreal cen) - Rr) * Rr <= 140 * u * (G * G).
Proof.
  intros K. destruct sp_pos as (L0 & R0 & RG & G0). pose proof (sp_along T) as E. cbv zeta in E. set (x := rdist (along (vreal o) d T) (vreal cen)) in *.
  assert (x0 : 0 <= x) by apply rnorm_nonneg. assert (GG : 0 < G * G) by (apply Rmult_lt_0_compat; lra).
  apply Rle_trans with (Rabs (x - Rr) * (x + Rr)); [apply Rmult_le_compat_l; [apply Rabs_pos|lra]|].
  rewrite <- (Rabs_pos_eq (x + Rr)) by lra. rewrite <- Rabs_mult. replace ((x - Rr) * (x + Rr)) with (x * x - Rr * Rr) by ring.
  rewrite E, Rabs_mult, (Rabs_pos_eq (G * G)) by lra. rewrite (Rmult_comm (G * G)). apply Rmult_le_compat_r; lra.
Qed.
(** a common point of line and sphere is at one of the two roots *)
Lemma sp_common tau : rdist (along (vreal o) d tau) (vreal cen) = Rr -> 0 < discr (vreal cen) (B2R r) (vreal o) d ->
  exists z, Rabs z = sqrt D /\ 0 < D /\ tau * L / G = (- B + z) / 2.
Proof.
  intros H HD. destruct sp_pos as (L0 & R0 & RG & G0). assert (GG : 0 < G * G) by (apply Rmult_lt_0_compat; lra). assert (X : 0 < L * L * (G * G)) by (repeat apply Rmult_lt_0_compat; lra).
  pose proof (sp_along tau) as E. cbv zeta in E. rewrite H in E. set (y := tau * L / G) in *.
  assert (E0 : y * y + B * y + C = 0) by (apply Rmult_eq_reg_l with (G * G); lra).
  exists (2 * y + B). assert (Ez : (2 * y + B) * (2 * y + B) = D).
  { assert (ED : D = B * B - 4 * C) by (unfold D, B, C; ring). rewrite ED. replace ((2 * y + B) * (2 * y + B)) with (4 * (y * y + B * y + C) + (B * B - 4 * C)) by ring. rewrite E0. ring. }
  split; [|split].
  - rewrite <- Ez. symmetry. apply sqrt_Rsqr_abs.
  - rewrite sp_D in HD. apply Rmult_lt_reg_r with (L * L * (G * G)); lra.
  - field.
Qed.
Lemma sp_dist T tau : 0 < D -> Rabs (T * L / G - tau * L / G) * sqrt D <= 180 * u ->
  Rabs (T - tau) * sqrt (discr (vreal cen) (B2R r) (vreal o) d) <= 180 * u * (G * G).
Proof.
  intros D0 K. destruct sp_pos as (L0 & R0 & RG & G0). rewrite sp_D. assert (LG : 0 < L * G) by (apply Rmult_lt_0_compat; lra).
  replace (D * (L * L * (G * G))) with (D * (L * G * (L * G))) by ring. assert (LG2 : 0 <= L * G * (L * G)) by (apply Rmult_le_pos; lra). rewrite sqrt_mult, sqrt_square by lra.
  replace (T * L / G - tau * L / G) with ((T - tau) * (L / G)) in K by (field; lra).
  assert (LGp : 0 < L / G) by (apply Rdiv_lt_0_compat; lra). rewrite Rabs_mult, (Rabs_pos_eq (L / G)) in K by lra.
  replace (Rabs (T - tau) * (sqrt D * (L * G))) with (Rabs (T - tau) * (L / G) * sqrt D * (G * G)) by (field; lra).
  apply Rmult_le_compat_r; [apply Rmult_le_pos; lra|exact K].
Qed.

Let s := fsqrt disc.
Let T1 := fdiv (fadd (Bopp b) s) (fmul two a).
Let T2 := fdiv (fsub (Bopp b) s) (fmul two a).
Definition root_ok (T : R) : Prop :=
  Rabs (rdist (along (vreal o) d T) (vreal cen) - Rr) * Rr <= 140 * u * (G * G) /\ Rabs T * L <= 208 / 100 * G.
Lemma sp_roots : 0 < B2R disc ->
  fin T1 /\ fin T2 /\ B2R T2 <= B2R T1 /\ root_ok (B2R T1) /\ root_ok (B2R T2) /\
  forall tau, rdist (along (vreal o) d tau) (vreal cen) = Rr -> let D' := discr (vreal cen) (B2R r) (vreal o) d in 0 < D' ->
    Rabs (B2R T1 - tau) * sqrt D' <= 180 * u * (G * G) \/ Rabs (B2R T2 - tau) * sqrt D' <= 180 * u * (G * G).
Proof.
  intros D0. destruct sp_pos as (L0 & R0 & RG & G0). pose proof sp_u as Hu. assert (LG : 0 < L * G) by (apply Rmult_lt_0_compat; lra).
  destruct sp_disc_err as (Fd & _ & Bd). destruct (sqrt_n disc (L * G) LG Fd D0) as (Fq & q0 & Eq). fold s in Fq, q0, Eq.
  assert (Ede : B2R disc / (L * G * (L * G)) = de) by (unfold de; field; lra). rewrite Ede in Eq.
  assert (Eopp : B2R (Bopp b) = - B2R b) by apply B2R_Bopp. assert (Fopp : fin (Bopp b)) by (rewrite is_finite_Bopp; apply sp_b).
  assert (Bb : Rabs (B2R b) <= 4 * (L * G)). { apply of_units; [exact LG|]. rewrite (proj2 sp_b), Rabs_mult, (Rabs_pos_eq 2) by lra. pose proof (proj2 sp_al'). lra. }
  assert (Bs : Rabs (B2R s) <= 4 * (L * G)).
  { apply of_units; [exact LG|]. assert (K : sqrt de <= 21 / 10).
    { rewrite <- (sqrt_square (21 / 10)) by lra. apply sqrt_le_1_alt. unfold de. apply div_le; [repeat apply Rmult_lt_0_compat; lra|]. rewrite Rabs_pos_eq in Bd by lra. 
      assert (0 < L * L * (G * G)) by (repeat apply Rmult_lt_0_compat; lra). lra. }
    assert (u * sqrt de <= 1 / 1024 * sqrt de) by (apply Rmult_le_compat_r; [apply sqrt_pos|lra]).
    replace (B2R s / (L * G)) with ((B2R s / (L * G) - sqrt de) + sqrt de) by ring. eapply Rle_trans; [apply Rabs_triang|]. rewrite (Rabs_pos_eq (sqrt de)) by apply sqrt_pos. lra. }
  destruct sp_over as (_ & O & _). destruct sp_big as (O2 & _). pose proof (bpow_gt_0 radix2 (e - 6)) as B0.
  assert (Es1 : Rabs (Rabs (B2R s) / (L * G) - sqrt de) <= u * sqrt de) by (rewrite (Rabs_pos_eq (B2R s)) by exact q0; exact Eq).
  destruct (sum_n (Bopp b) s (L * G) LG Fopp Fq) as (F1 & E1). { eapply Rle_trans; [apply Rabs_triang|]. rewrite Eopp, Rabs_Ropp. lra. }
  destruct (diff_n (Bopp b) s (L * G) LG Fopp Fq) as (F2 & E2). { unfold Rminus. eapply Rle_trans; [apply Rabs_triang|]. rewrite Eopp, !Rabs_Ropp. lra. }
  assert (Eb : B2R (Bopp b) / (L * G) = - (2 * d0)) by (rewrite Eopp, <- (proj2 sp_b); field; lra). rewrite Eb in E1, E2.
  pose proof (sp_root s _ D0 F1 Es1 E1) as K1. cbv zeta in K1. fold T1 in K1. destruct K1 as (FT1 & RT1 & ST1 & WT1).
  assert (Eopp2 : B2R (Bopp s) = - B2R s) by apply B2R_Bopp.
  pose proof (sp_root (Bopp s) (fsub (Bopp b) s) D0 F2) as K2. rewrite Eopp2, Rabs_Ropp in K2. 
  replace (- (2 * d0) + - B2R s / (L * G)) with (- (2 * d0) - B2R s / (L * G)) in K2 by (field; lra).
  specialize (K2 Es1 E2). cbv zeta in K2. fold T2 in K2. destruct K2 as (FT2 & RT2 & ST2 & WT2).
  split; [exact FT1|]. split; [exact FT2|].
  assert (A0 : 0 < B2R (fmul two a)).
  { destruct sp_4a as (_ & _ & _ & E2a). pose proof (qd_al u al Hu (proj2 sp_al)) as A1. assert (LL : 0 < L * L) by (apply Rmult_lt_0_compat; lra).
    replace (B2R (fmul two a)) with (B2R (fmul two a) / (L * L) * (L * L)) by (field; lra). rewrite E2a. apply Rmult_lt_0_compat; lra. }
  assert (SZ : forall T, Rabs (T * L / G) <= 208 / 100 -> Rabs T * L <= 208 / 100 * G).
  { intros T K. apply of_units in K; [|exact G0]. rewrite Rabs_mult, (Rabs_pos_eq L) in K by lra. exact K. }
  split; [|split; [split; [apply sp_surface, RT1|apply SZ, ST1]|split; [split; [apply sp_surface, RT2|apply SZ, ST2]|]]].
  - destruct sp_4a as (_ & _ & F2a & _). destruct (div_fin _ _ F2a FT1) as (_ & _ & X1). destruct (div_fin _ _ F2a FT2) as (_ & _ & X2). fold T1 in X1. fold T2 in X2. rewrite X1, X2.
    apply rnd_le. apply Rmult_le_compat_r; [left; apply Rinv_0_lt_compat, A0|].
    destruct (add_fin _ _ F1) as (_ & _ & Y1). destruct (sub_fin _ _ F2) as (_ & _ & Y2). rewrite Y1, Y2. apply rnd_le. lra.
  - intros tau Ht D' HD. destruct (sp_common tau Ht HD) as (z & Hz & Dp & Ez). destruct (Rle_dec 0 z) as [Z|Z].
    + left. apply sp_dist; [exact Dp|]. rewrite Ez. apply WT1; [exact Hz|exact Dp|apply Rmult_le_pos; assumption].
    + right. apply sp_dist; [exact Dp|]. rewrite Ez. apply WT2; [exact Hz|exact Dp|]. replace (- B2R s * z) with (B2R s * - z) by ring. apply Rmult_le_pos; lra.
Qed.

(** the tangent case, for directions of length nearly one *)
Let T0 := fmul (fdiv (Bopp b) two) a.
Lemma sp_tangent t : Rabs (B2R disc) <= t -> Rabs (L * L - 1) <= 8 * u ->
  fin T0 /\ Rabs (rdist (along (vreal o) d (B2R T0)) (vreal cen) - Rr) * Rr <= t / 3 + 140 * u * (G * G) /\ Rabs (B2R T0) * L <= 208 / 100 * G.
Proof.
  intros Ht HL. destruct sp_pos as (L0 & R0 & RG & G0). pose proof sp_u as Hu. assert (LG : 0 < L * G) by (apply Rmult_lt_0_compat; lra). pose proof sp_e as E5.
  assert (GG : 0 < G * G) by (apply Rmult_lt_0_compat; lra). pose proof (Rabs_le_inv _ _ HL) as HL'.
  destruct sp_over as (O1 & O & _). destruct sp_big as (O2 & _). pose proof (bpow_gt_0 radix2 (e - 6)) as B0.
  destruct sp_PVQ as (P1 & PV & V1 & Q1). destruct sp_d0 as (Fdd & Ed0). destruct sp_al as (Fa & Eal). destruct sp_al' as (Bal & Bd0).
  destruct (two_spec fc fs fa fpi ltac:(lia)) as (F2 & E2). destruct sp_b as (Fb & Eb).
  assert (Eopp : B2R (Bopp b) = - B2R b) by apply B2R_Bopp. assert (Fopp : fin (Bopp b)) by (rewrite is_finite_Bopp; exact Fb).
  assert (Bdd : Rabs (B2R dd) <= 2 * (L * G)) by (apply of_units; assumption).
  assert (Eb2 : B2R b = 2 * B2R dd). { replace (B2R b) with (B2R b / (L * G) * (L * G)) by (field; lra). rewrite Eb. unfold d0. field. lra. }
  assert (Eh : B2R (Bopp b) / B2R two = - B2R dd) by (rewrite Eopp, E2, Eb2; field).
  assert (N2 : B2R two <> 0) by (rewrite E2; lra).
  destruct (div_ok (Bopp b) two Fopp N2) as (Fh & Rh). { rewrite Eh. apply rnd_small. rewrite Rabs_Ropp. lra. }
  rewrite Eh, (rnd_id (p := p) (e := e) (- B2R dd)) in Rh by (apply generic_format_opp, B2R_fmt).
  assert (Ba : Rabs (B2R a) <= 2 * (L * L)) by (apply of_units; [apply Rmult_lt_0_compat; lra|exact Bal]).
  destruct sp_under as (_ & _ & U & _). replace (L * G) with (L * G * 1) in U by ring.
  destruct (mul_n (fdiv (Bopp b) two) a (L * G) 1 LG ltac:(lra) Fh Fa U) as (FT & ET).
  { rewrite Rh. eapply Rle_trans; [apply (prod_bound _ _ (2 * (L * G)) (2 * (L * L)))|]; [rewrite Rabs_Ropp; exact Bdd|exact Ba|].
    assert (2 * (L * L) <= 3) by lra. assert (2 * (L * G) * (2 * (L * L)) <= 2 * (L * G) * 3) by (apply Rmult_le_compat_l; lra). lra. }
  fold T0 in FT, ET. split; [exact FT|]. rewrite Rh, Rmult_1_r in ET.
  replace (- B2R dd / (L * G)) with (- d0) in ET by (unfold d0; field; lra). replace (B2R a / 1) with (al * (L * L)) in ET by (unfold al; field; lra).
  set (k := al * (L * L)) in *. set (y := B2R T0 / (L * G)) in *. set (tau := B2R T0 * L / G).
  assert (Ey : tau = y * (L * L)) by (unfold tau, y; field; lra).
  assert (Hk : Rabs (k - 1) <= 182 / 10 * u).
  { replace (k - 1) with ((al - 1) * (L * L - 1) + (al - 1) + (L * L - 1)) by (unfold k; ring).
    assert (M : Rabs ((al - 1) * (L * L - 1)) <= 10 * u * (8 * u)) by (apply prod_bound; assumption).
    assert (u * u <= 1 / 1024 * u) by (apply Rmult_le_compat_r; lra). apply Rabs_le_inv in M, Eal. apply Rabs_le. lra. }
  assert (Bd1 : Rabs d0 <= 101 / 100) by (apply Rabs_le_inv in Ed0, P1; apply Rabs_le; lra).
  assert (Hdk : Rabs (d0 * (k - 1)) <= 101 / 100 * (182 / 10 * u)) by (apply prod_bound; assumption).
  assert (Bdk : Rabs (- d0 * k) <= 103 / 100).
  { replace (- d0 * k) with (- (d0 * (k - 1) + d0)) by ring. rewrite Rabs_Ropp. eapply Rle_trans; [apply Rabs_triang|]. lra. }
  assert (uk : u * Rabs (- d0 * k) <= u * (103 / 100)) by (apply Rmult_le_compat_l; lra).
  assert (Hy : Rabs (y + d0) <= 205 / 10 * u).
  { replace (y + d0) with ((y - - d0 * k) - d0 * (k - 1)) by ring. apply Rabs_le_inv in ET, Hdk. apply Rabs_le. lra. }
  assert (By : Rabs y <= 104 / 100) by (apply Rabs_le_inv in Hy, Bd1; apply Rabs_le; lra).
  assert (Hyl : Rabs (y * (L * L - 1)) <= 104 / 100 * (8 * u)) by (apply prod_bound; assumption).
  assert (Htau : Rabs (tau + P) <= 39 * u).
  { replace (tau + P) with (y * (L * L - 1) + (y + d0) - (d0 - P)) by (rewrite Ey; ring). apply Rabs_le_inv in Hyl, Hy, Ed0. apply Rabs_le. lra. }
  split.
  - assert (X : 0 < L * L * (G * G)) by (repeat apply Rmult_lt_0_compat; lra).
    assert (Hde : Rabs de <= t / (L * L * (G * G))). { unfold de. rewrite div_abs by exact X. apply Rmult_le_compat_r; [left; apply Rinv_0_lt_compat, X|exact Ht]. }
    destruct (qd_round u P V Q al d0 wn rr ga bb ac de sp_u P1 PV V1 Q1 (proj2 sp_al) (proj2 sp_d0) (proj2 sp_ww) (proj2 sp_rr) (proj2 sp_cc) (proj2 sp_bb) (proj2 sp_ac) (proj2 sp_disc)) as (_ & K & _).
    change (Rabs (de - D) <= 190 * u) in K.
    assert (F : Rabs (tau * tau + B * tau + C) <= 50 * u + t / (L * L * (G * G)) / 4).
    { replace (tau * tau + B * tau + C) with ((tau + P) * (tau + P) + (de - D) / 4 - de / 4) by (unfold B, C, D; field).
      assert (M : Rabs ((tau + P) * (tau + P)) <= 39 * u * (39 * u)) by (apply prod_bound; assumption).
      assert (u * u <= 1 / 1024 * u) by (apply Rmult_le_compat_r; lra). apply Rabs_le_inv in M, K, Hde. apply Rabs_le. lra. }
    pose proof (sp_along (B2R T0)) as E. cbv zeta in E. fold tau in E. set (x := rdist (along (vreal o) d (B2R T0)) (vreal cen)) in *.
    assert (x0 : 0 <= x) by apply rnorm_nonneg.
    apply Rle_trans with (Rabs (x - Rr) * (x + Rr)); [apply Rmult_le_compat_l; [apply Rabs_pos|lra]|].
    rewrite <- (Rabs_pos_eq (x + Rr)) by lra. rewrite <- Rabs_mult. replace ((x - Rr) * (x + Rr)) with (x * x - Rr * Rr) by ring.
    rewrite E, Rabs_mult, (Rabs_pos_eq (G * G)) by lra.
    apply Rle_trans with (G * G * (50 * u + t / (L * L * (G * G)) / 4)); [apply Rmult_le_compat_l; lra|].
    replace (G * G * (50 * u + t / (L * L * (G * G)) / 4)) with (50 * u * (G * G) + t / 4 / (L * L)) by (field; lra).
    assert (t0 : 0 <= t) by (eapply Rle_trans; [apply Rabs_pos|exact Ht]).
    assert (t / 4 / (L * L) <= t / 3). { apply div_le; [lra|]. assert (t / 3 * (3 / 4) <= t / 3 * (L * L)) by (apply Rmult_le_compat_l; lra). lra. }
    assert (0 < u * (G * G)) by (apply Rmult_lt_0_compat; lra). lra.
  - assert (Bt : Rabs tau <= 208 / 100) by (apply Rabs_le_inv in Htau, P1; apply Rabs_le; lra).
    apply of_units in Bt; [|exact G0]. rewrite Rabs_mult, (Rabs_pos_eq L) in Bt by lra. exact Bt.
Qed.
End SP.
