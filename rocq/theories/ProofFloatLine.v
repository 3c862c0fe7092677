(** * Rounding errors of projections, and of distances to lines and rays *)

From Coq Require Import Bool Lia ZArith Reals Lra Psatz.
From Flocq Require Import Core BinarySingleNaN.
From Verif Require Import Scalar Linal SpecReal VecR VecLemmas SpecIEEE SpecFloatErr ProofRound ProofIEEE ProofFloatErr ProofFloatNorm ProofFloatDist.
Local Open Scope R_scope.

(** ** Real numbers: a quotient of two computed scalar products *)
Lemma quotient_err (u k h w0 W C T t1 t2 : R) : 0 < u -> 2 <= k -> k * u <= 1 / 32 -> 0 <= h -> h <= u / 16 ->
  31 / 32 <= w0 -> w0 <= 33 / 32 -> W = w0 * w0 -> 0 <= C -> Rabs T <= C * w0 ->
  Rabs (t1 - T) <= 32 / 31 * (k * u) * (C * w0) + 32 / 31 * h -> Rabs (t2 - W) <= 32 / 31 * (k * u) * W + 32 / 31 * h ->
  9 / 10 <= t2 /\ Rabs (t1 / t2 - T / W) * w0 <= 23 / 10 * (k * u) * C + 13 / 10 * h.
Proof.
  intros Hu Hk Hku Hh0 Hh Hw1 Hw2 HW HC HT H1 H2.
  assert (HW1 : 961 / 1024 <= W) by nra. assert (HW2 : W <= 1089 / 1024) by nra.
  set (ku := k * u) in *. assert (Hku0 : 0 <= ku) by (unfold ku; nra). assert (Huk : u <= ku / 2) by (unfold ku; nra).
  assert (HG : Rabs (t2 - W) <= 11 / 10 * ku * W).
  { eapply Rle_trans; [exact H2|]. assert (Q : 961 / 1024 * ku <= ku * W) by (apply (Rmult_le_compat_l ku) in HW1; lra). lra. }
  assert (HkW : ku * W <= 1 / 32 * W) by (apply Rmult_le_compat_r; lra).
  apply Rabs_le_inv in HG as HG'. assert (Ht2 : 9 / 10 <= t2) by lra. split; [exact Ht2|].
  assert (Hr : W <= 104 / 100 * t2) by lra.
  set (q := T / W). assert (ET : T = q * W) by (unfold q; field; lra).
  assert (Hq : Rabs q * w0 <= C).
  { assert (Q : Rabs q * W <= C * w0). { rewrite <- (Rabs_pos_eq W) at 1 by lra. rewrite <- Rabs_mult, <- ET. exact HT. }
    rewrite HW in Q. apply Rmult_le_reg_r with w0; [lra|]. lra. }
  assert (Ex : t1 / t2 - q = ((t1 - T) - q * (t2 - W)) * / t2).
  { rewrite ET. field. lra. }
  rewrite Ex, Rabs_mult, (Rabs_pos_eq (/ t2)) by (left; apply Rinv_0_lt_compat; lra).
  assert (Hit : / t2 <= 10 / 9). { replace (10 / 9) with (/ (9 / 10)) by field. apply Rinv_le_contravar; lra. }
  assert (Hi0 : 0 < / t2) by (apply Rinv_0_lt_compat; lra).
  assert (HWi : W * / t2 <= 104 / 100). { apply Rmult_le_reg_r with t2; [lra|]. rewrite Rmult_assoc, Rinv_l by lra. lra. }
  pose proof (Rabs_triang (t1 - T) (- (q * (t2 - W)))) as Tr. rewrite Rabs_Ropp, Rabs_mult in Tr.
  change (t1 - T + - (q * (t2 - W))) with (t1 - T - q * (t2 - W)) in Tr.
  set (A := Rabs (t1 - T - q * (t2 - W))) in *. assert (HA0 : 0 <= A) by apply Rabs_pos.
  assert (Q2 : Rabs q * Rabs (t2 - W) <= Rabs q * (11 / 10 * ku * W)) by (apply Rmult_le_compat_l; [apply Rabs_pos|exact HG]).
  assert (HA : A * w0 <= (32 / 31 * ku * (C * w0) + 32 / 31 * h + Rabs q * (11 / 10 * ku * W)) * w0) by (apply Rmult_le_compat_r; lra).
  assert (HA2 : (32 / 31 * ku * (C * w0) + 32 / 31 * h + Rabs q * (11 / 10 * ku * W)) * w0 <= 22 / 10 * (ku * C) * W + 107 / 100 * h).
  { replace ((32 / 31 * ku * (C * w0) + 32 / 31 * h + Rabs q * (11 / 10 * ku * W)) * w0)
      with (32 / 31 * (ku * C * W) + 32 / 31 * (h * w0) + 11 / 10 * ((ku * W) * (Rabs q * w0))) by (rewrite HW; ring).
    assert (B1 : h * w0 <= h * (33 / 32)) by (apply Rmult_le_compat_l; lra).
    assert (B2 : (ku * W) * (Rabs q * w0) <= (ku * W) * C) by (apply Rmult_le_compat_l; [nra|exact Hq]).
    assert (B3 : 0 <= ku * C * W) by (apply Rmult_le_pos; [apply Rmult_le_pos|]; lra). lra. }
  replace (A * / t2 * w0) with (A * w0 * / t2) by ring.
  apply Rle_trans with ((22 / 10 * (ku * C) * W + 107 / 100 * h) * / t2); [apply Rmult_le_compat_r; lra|].
  replace ((22 / 10 * (ku * C) * W + 107 / 100 * h) * / t2) with (22 / 10 * (ku * C) * (W * / t2) + 107 / 100 * h * / t2) by ring.
  assert (B4 : 0 <= ku * C) by (apply Rmult_le_pos; lra).
  assert (B5 : 22 / 10 * (ku * C) * (W * / t2) <= 22 / 10 * (ku * C) * (104 / 100)) by (apply Rmult_le_compat_l; lra).
  assert (B6 : 107 / 100 * h * / t2 <= 107 / 100 * h * (10 / 9)) by (apply Rmult_le_compat_l; lra). lra.
Qed.

(** ** Real vectors *)
Lemma div1 x : x / 1 = x.
Proof. field. Qed.
Definition rrej {n} (x y : vec R n) : vec R n := rsub x (rscale (rdot x y / rdot y y) y).

Lemma rnorm_rdist n (x y : vec R n) : rnorm (rsub x y) = rdist x y.
Proof. reflexivity. Qed.
Lemma rdist_zero_r n (x : vec R n) : rdist x rzero = rnorm x.
Proof. unfold rdist. now rewrite rsub_zero_r. Qed.
Lemma rnorm_close n (x y : vec R n) : Rabs (rnorm x - rnorm y) <= rdist x y.
Proof.
  pose proof (rdist_triangle x y rzero) as H1. pose proof (rdist_triangle y x rzero) as H2. rewrite !rdist_zero_r in *. rewrite (rdist_sym y x) in H2. apply Rabs_le. lra.
Qed.
Lemma rdist_scale n s t (x : vec R n) : rdist (rscale s x) (rscale t x) = Rabs (s - t) * rnorm x.
Proof. unfold rdist. rewrite rscale_minus. apply rnorm_scale. Qed.
Lemma rdist_sub_sub n (x y z w : vec R n) : rdist (rsub x y) (rsub z w) <= rdist x z + rdist y w.
Proof.
  apply Rle_trans with (rdist (rsub x y) (rsub z y) + rdist (rsub z y) (rsub z w)); [apply rdist_triangle|].
  apply Rplus_le_compat; right; unfold rdist, rnorm; apply (f_equal sqrt); rewrite ?rdot_sub_l, ?rdot_sub_r; rewrite ?(rdot_comm _ x), ?(rdot_comm _ z); ring_simplify; rewrite ?(rdot_comm _ x), ?(rdot_comm z y), ?(rdot_comm w y), ?(rdot_comm w z); ring.
Qed.
Lemma rrej_min n (x y : vec R n) t : 0 < rdot y y -> rnorm (rrej x y) <= rdist x (rscale t y).
Proof.
  intros Hy. unfold rdist. apply sqrt_le_1_alt. unfold rrej. set (q := rdot x y / rdot y y).
  assert (E : rdot x y = q * rdot y y) by (unfold q; field; lra).
  clearbody q. assert (P : 0 <= (t - q) * (t - q) * rdot y y) by (apply Rmult_le_pos; [apply Rle_0_sqr|lra]).
  rewrite !rdot_sub_l, !rdot_sub_r, !rdot_scale_l, !rdot_scale_r, (rdot_comm y x), E. lra.
Qed.
Lemma rrej_le n (x y : vec R n) : 0 < rdot y y -> rnorm (rrej x y) <= rnorm x.
Proof.
  intros Hy. rewrite <- (rdist_zero_r n x). replace (@rzero n) with (rscale 0 y) by apply rscale_0. apply rrej_min, Hy.
Qed.
(** the distance to a line depends continuously on the point and on the direction *)
Lemma rrej_point n (x z y : vec R n) : 0 < rdot y y -> Rabs (rnorm (rrej x y) - rnorm (rrej z y)) <= rdist x z.
Proof.
  intros Hy. assert (H : forall a b : vec R n, rnorm (rrej a y) <= rdist a b + rnorm (rrej b y)).
  { intros a b. eapply Rle_trans; [apply (rrej_min n a y (rdot b y / rdot y y) Hy)|]. apply rdist_triangle. }
  pose proof (H x z). pose proof (H z x) as H2. rewrite (rdist_sym z x) in H2. apply Rabs_le. lra.
Qed.
Lemma rrej_dir n (x y d : vec R n) : rnorm d = 1 -> 0 < rnorm y -> Rabs (rnorm (rrej x y) - rnorm (rrej x d)) <= rnorm x * rdist y d * Rmax 1 (/ rnorm y).
Proof.
  intros Hd Hy. assert (Hyy : 0 < rdot y y) by (rewrite <- rnorm_sq; nra). assert (Hdd : rdot d d = 1) by (rewrite <- rnorm_sq, Hd; ring).
  pose proof (rnorm_nonneg x) as Hx. pose proof (rdist_nonneg y d) as Hyd.
  assert (D : forall s, rdist (rscale s y) (rscale s d) = Rabs s * rdist y d).
  { intros s. unfold rdist. rewrite <- rnorm_scale. f_equal. apply eq_by_dot. unfold rsub, rscale. clear. induction n as [|n IH]; [reflexivity|]. destruct y as [a y], d as [b d]. cbn. rewrite IH. ring. }
  assert (H1 : rnorm (rrej x y) <= rnorm (rrej x d) + rnorm x * rdist y d).
  { eapply Rle_trans; [apply (rrej_min n x y (rdot x d / rdot d d) Hyy)|]. eapply Rle_trans; [apply (rdist_triangle x (rscale (rdot x d / rdot d d) d))|].
    apply Rplus_le_compat_l. rewrite rdist_sym, D. apply Rmult_le_compat_r; [exact Hyd|]. rewrite Hdd, div1.
    eapply Rle_trans; [apply cauchy_schwarz|]. rewrite Hd. lra. }
  assert (H2 : rnorm (rrej x d) <= rnorm (rrej x y) + rnorm x * rdist y d * / rnorm y).
  { eapply Rle_trans; [apply (rrej_min n x d (rdot x y / rdot y y))|]; [rewrite Hdd; lra|].
    eapply Rle_trans; [apply (rdist_triangle x (rscale (rdot x y / rdot y y) y))|].
    apply Rplus_le_compat_l. rewrite D. replace (rnorm x * rdist y d * / rnorm y) with (rnorm x * / rnorm y * rdist y d) by ring.
    apply Rmult_le_compat_r; [exact Hyd|]. unfold Rdiv. rewrite Rabs_mult, (Rabs_pos_eq (/ _)) by (left; apply Rinv_0_lt_compat; lra).
    rewrite <- rnorm_sq. apply Rmult_le_reg_r with (rnorm y * rnorm y); [nra|]. rewrite Rmult_assoc, Rinv_l, Rmult_1_r by nra.
    replace (rnorm x * / rnorm y * (rnorm y * rnorm y)) with (rnorm x * rnorm y) by (field; lra). apply cauchy_schwarz. }
  assert (P : 0 <= rnorm x * rdist y d) by (apply Rmult_le_pos; assumption).
  pose proof (Rmult_le_compat_l _ _ _ P (Rmax_l 1 (/ rnorm y))). pose proof (Rmult_le_compat_l _ _ _ P (Rmax_r 1 (/ rnorm y))).
  apply Rabs_le. lra.
Qed.

(** the distance to a ray from the origin in direction [d], [rnorm d = 1] *)
Lemma ray_distance_bounds n (o d v : vec R n) m : rnorm d = 1 -> is_set_distance (fun q => q = v) (on_ray o d) m ->
  let a := rsub v o in
  rnorm (rrej a d) <= m <= rnorm a /\ m <= rnorm (rrej a d) + Rmax 0 (- rdot a d) /\ rnorm a - Rmax 0 (rdot a d) <= m.
Proof.
  intros Hd [M1 (q1 & q2 & -> & (t & Ht & ->) & M2)] a. assert (Hdd : rdot d d = 1) by (rewrite <- rnorm_sq, Hd; ring).
  assert (Ea : forall s, rdist v (along o d s) = rdist a (rscale s d)).
  { intros s. unfold rdist. f_equal. apply eq_by_dot. unfold a, along, rsub, radd, rscale. clear. induction n as [|n IH]; [reflexivity|].
    destruct v as [x v], o as [y o], d as [z d]. cbn. rewrite IH. ring. }
  assert (A0 : m <= rnorm a). { rewrite <- (rdist_zero_r n a). replace (@rzero n) with (rscale 0 d) by apply rscale_0. rewrite <- Ea. apply M1; [reflexivity|]. exists 0. split; [lra|reflexivity]. }
  assert (A1 : rnorm (rrej a d) <= m). { rewrite <- M2, Ea. apply rrej_min. lra. }
  set (q := rdot a d) in *.
  assert (Er : rrej a d = rsub a (rscale q d)). { unfold rrej. rewrite Hdd, div1. reflexivity. }
  assert (Tr : rnorm a <= rnorm (rrej a d) + Rabs q).
  { rewrite Er. pose proof (rdist_triangle a (rscale q d) rzero) as T. rewrite !rdist_zero_r, rnorm_scale, Hd in T. unfold rdist in T. lra. }
  split; [lra|]. split.
  - destruct (Rle_dec 0 q) as [Q|Q].
    + pose proof (Rmax_l 0 (- q)). apply Rle_trans with (rnorm (rrej a d)); [|lra]. rewrite Er, rnorm_rdist, <- Ea. apply M1; [reflexivity|]. exists q. split; [exact Q|reflexivity].
    + pose proof (Rmax_r 0 (- q)). rewrite Rabs_left in Tr by lra. lra.
  - destruct (Rle_dec 0 q) as [Q|Q].
    + pose proof (Rmax_r 0 q). rewrite Rabs_pos_eq in Tr by lra. lra.
    + pose proof (Rmax_l 0 q). apply Rle_trans with (rnorm a); [lra|]. rewrite <- M2, Ea. unfold rdist. apply sqrt_le_1_alt.
      rewrite !rdot_sub_l, !rdot_sub_r, !rdot_scale_l, !rdot_scale_r, (rdot_comm d a), Hdd. fold q. nra.
Qed.

Section Line.
Context {p e : Z} {Hp : Prec_gt_0 p} {He : Prec_lt_emax p e}.
Notation bf := (binary_float p e).
Notation rnd := (rndf p e).
Notation fmt := (fmtf p e).
Notation fsub := (@Bminus p e Hp He mode_NE).
Notation fmul := (@Bmult p e Hp He mode_NE).
Notation fdiv := (@Bdiv p e Hp He mode_NE).
Notation u := (uround p).
Notation eta := (@eta p e).
Context (fc fs fa : bf -> bf) (fpi : bf).
Let S := IEEE p e Hp He fc fs fa fpi.

Lemma dot_err2 n (a b : vec bf n) : (INR n + 1) * u <= 1 / 32 -> finite_pt a -> finite_pt b ->
  rnorm (vreal a) * rnorm (vreal b) <= bpow radix2 (e - 2) ->
  fin (@dot S n a b) /\
  Rabs (B2R (@dot S n a b) - rdot (vreal a) (vreal b)) <= 32 / 31 * ((INR n + 1) * u) * (rnorm (vreal a) * rnorm (vreal b)) + 32 / 31 * (INR n * eta).
Proof.
  intros Hn Fa Fb HM. pose proof (@u_pos p) as Hu. pose proof (@eta_pos p e) as Hh. pose proof (pos_INR n) as Hin.
  pose proof (absdot_norms n (vreal a) (vreal b)) as Hm. pose proof (absdot_nonneg n (vreal a) (vreal b)) as Hm0.
  destruct (dot_err fc fs fa fpi n a b Hn Fa Fb) as [F E]; [lra|]. split; [exact F|]. eapply Rle_trans; [exact E|].
  pose proof (pow_1_plus_32 u (n + 1) ltac:(lra)) as P1. rewrite plus_INR in P1. cbn [INR] in P1. specialize (P1 Hn).
  assert (P2 : (1 + u) ^ n <= 32 / 31).
  { assert ((1 + u) ^ n <= (1 + u) ^ (n + 1)) by (apply Rle_pow; [lra|lia]). lra. }
  assert (P0 : 1 <= (1 + u) ^ (n + 1)) by (apply pow_R1_Rle; lra).
  apply Rplus_le_compat; [apply Rmult_le_compat; lra|].
  replace (32 / 31 * (INR n * eta)) with (INR n * (32 / 31) * eta) by ring. apply Rmult_le_compat_r; [lra|]. apply Rmult_le_compat_l; lra.
Qed.

Lemma eta_small n : (INR n + 3) * u <= 1 / 32 -> INR n * eta <= u / 16.
Proof.
  intros Hn. pose proof (@u_pos p) as Hu. pose proof (@emax_pos p e Hp He) as Hpe.
  replace eta with (u * bpow radix2 (2 - e)) by (unfold uround, ProofFloatErr.eta; rewrite <- bpow_plus; f_equal; lia).
  assert (B : bpow radix2 (2 - e) <= 2 * u). { replace (2 * u) with (bpow radix2 (1 - p)) by (unfold uround, Zminus; rewrite bpow_plus; reflexivity). apply bpow_le. lia. }
  pose proof (pos_INR n). assert (Q : INR n * u * bpow radix2 (2 - e) <= 1 / 32 * (2 * u)).
  { apply Rmult_le_compat; try (left; apply bpow_gt_0); [apply Rmult_le_pos; lra|nra|exact B]. }
  lra.
Qed.

Lemma rejection_err n (c w : vec bf n) : (1 <= n)%nat -> (INR n + 3) * u <= 1 / 32 -> finite_pt c -> finite_pt w ->
  Rabs (rnorm (vreal w) - 1) <= 1 / 32 -> rnorm (vreal c) * rnorm (vreal c) <= 34 / 32 * bpow radix2 (e - 4) * (34 / 32) ->
  let r := @rejection S n c w in let C := rnorm (vreal c) in
  finite_pt r /\ rnorm (vreal r) * rnorm (vreal r) <= bpow radix2 (e - 2) /\ rnorm (vreal r) <= 12 / 10 * C + 5 * (INR n * eta) /\
  rdist (vreal r) (rrej (vreal c) (vreal w)) <= (5 / 2 * (INR n + 1) + 7 / 2) * u * C + 4 * (INR n * eta).
Proof.
  intros Hn1 Hn Fc Fw Hw HC r C. pose proof (@u_pos p) as Hu. pose proof (@eta_pos p e) as Hh0. pose proof (@emax_pos p e Hp He) as Hpe.
  pose proof (eta_small n Hn) as Hh. assert (Hin : 1 <= INR n) by (apply (le_INR 1); lia).
  set (w0 := rnorm (vreal w)) in *. apply Rabs_le_inv in Hw. assert (HC0 : 0 <= C) by apply rnorm_nonneg. fold C in HC.
  assert (Hu1 : u <= 1 / 128) by nra. assert (Hk : (INR n + 1) * u <= 1 / 32) by nra.
  assert (Hp7 : (7 <= p)%Z). { assert (Q : u <= bpow radix2 (-7)) by (cbn; lra). apply le_bpow in Q. lia. }
  set (E := bpow radix2 (e - 4)) in *. assert (HE : 16 <= E) by (apply (bpow_le radix2 4); lia).
  assert (E2 : bpow radix2 (e - 2) = 4 * E) by (replace (e - 2)%Z with (2 + (e - 4))%Z by lia; rewrite bpow_plus; reflexivity).
  assert (E3 : bpow radix2 (e - 3) = 2 * E) by (replace (e - 3)%Z with (1 + (e - 4))%Z by lia; rewrite bpow_plus; reflexivity).
  assert (E0 : bpow radix2 e = 16 * E) by (replace e with (4 + (e - 4))%Z at 1 by lia; rewrite bpow_plus; reflexivity).
  assert (HC1 : 2 * C <= 1 + 12 / 10 * E) by nra.
  set (h := INR n * eta) in *. assert (Hh1 : eta <= h) by (unfold h; nra). set (k := INR n + 1) in *.
  destruct (dot_err2 n c w Hk Fc Fw) as [F1 D1]; [fold C w0; nra|].
  destruct (dot_err2 n w w Hk Fw Fw) as [F2 D2]; [fold w0; nra|]. rewrite <- (rnorm_sq (vreal w)) in D2. fold C w0 h k in D1, D2.
  set (t1 := @dot S n c w : bf) in *. set (t2 := @dot S n w w : bf) in *. set (T := rdot (vreal c) (vreal w)) in *.
  assert (HT : Rabs T <= C * w0) by apply cauchy_schwarz.
  destruct (quotient_err u k h w0 (w0 * w0) C T (B2R t1) (B2R t2)) as [Q1 Q2]; try assumption; try lra; try reflexivity; [unfold k; lra|].
  set (x := B2R t1 / B2R t2) in *. set (q := T / (w0 * w0)) in *.
  assert (Hqw : Rabs q * w0 <= C).
  { unfold q, Rdiv. rewrite Rabs_mult, (Rabs_pos_eq (/ _)) by (left; apply Rinv_0_lt_compat; nra).
    apply Rmult_le_reg_r with w0; [lra|]. replace (Rabs T * / (w0 * w0) * w0 * w0) with (Rabs T) by (field; lra). exact HT. }
  set (ku := k * u) in *. assert (Hku0 : 0 <= ku) by (unfold ku, k; nra).
  assert (HkC : ku * C <= 1 / 32 * C) by (apply Rmult_le_compat_r; lra). assert (HkC0 : 0 <= ku * C) by (apply Rmult_le_pos; lra).
  assert (HuC : u * C <= 1 / 128 * C) by (apply Rmult_le_compat_r; lra). assert (HuC0 : 0 <= u * C) by (apply Rmult_le_pos; lra).
  assert (Huh : u * h <= 1 / 128 * h) by (apply Rmult_le_compat_r; lra).
  assert (Hxw : Rabs x * w0 <= 1072 / 1000 * C + 13 / 10 * h).
  { replace x with (q + (x - q)) by ring. apply Rle_trans with ((Rabs q + Rabs (x - q)) * w0); [apply Rmult_le_compat_r; [lra|apply Rabs_triang]|]. lra. }
  assert (Hx : Rabs x <= 32 / 31 * (1072 / 1000 * C + 13 / 10 * h)).
  { apply Rle_trans with (32 / 31 * (Rabs x * w0)); [|lra]. pose proof (Rabs_pos x). nra. }
  assert (Hrx : Rabs (rnd x - x) <= u * Rabs x + eta) by apply rnd_near.
  assert (Hrx' : Rabs (rnd x - x) <= 1 / 128 * Rabs x + eta).
  { eapply Rle_trans; [exact Hrx|]. apply Rplus_le_compat_r. apply Rmult_le_compat_r; [apply Rabs_pos|lra]. }
  assert (Hov : Rabs (rnd x) < bpow radix2 e).
  { replace (rnd x) with (x + (rnd x - x)) by ring. eapply Rle_lt_trans; [apply Rabs_triang|]. lra. }
  destruct (div_ok t1 t2 F1 ltac:(lra) Hov) as [F3 D3]. fold x in D3. set (q' := fdiv t1 t2) in *.
  assert (Hq1 : Rabs (B2R q' - x) * w0 <= 11 / 10 * (u * C) + 11 / 10 * h).
  { rewrite D3. apply Rle_trans with ((u * Rabs x + eta) * w0); [apply Rmult_le_compat_r; lra|].
    replace ((u * Rabs x + eta) * w0) with (u * (Rabs x * w0) + eta * w0) by ring.
    assert (B1 : u * (Rabs x * w0) <= u * (1072 / 1000 * C + 13 / 10 * h)) by (apply Rmult_le_compat_l; lra).
    assert (B2 : eta * w0 <= eta * (33 / 32)) by (apply Rmult_le_compat_l; lra). lra. }
  assert (Hq2 : Rabs (B2R q' - q) * w0 <= 23 / 10 * (ku * C) + 11 / 10 * (u * C) + 24 / 10 * h).
  { replace (B2R q' - q) with ((B2R q' - x) + (x - q)) by ring.
    apply Rle_trans with ((Rabs (B2R q' - x) + Rabs (x - q)) * w0); [apply Rmult_le_compat_r; [lra|apply Rabs_triang]|]. lra. }
  assert (Hq3 : Rabs (B2R q') * w0 <= 1081 / 1000 * C + 24 / 10 * h).
  { replace (B2R q') with (q + (B2R q' - q)) by ring.
    apply Rle_trans with ((Rabs q + Rabs (B2R q' - q)) * w0); [apply Rmult_le_compat_r; [lra|apply Rabs_triang]|]. lra. }
  assert (Hs : finite_pt (@projection S n c w : vec bf n) /\ rdist (vreal (@projection S n c w : vec bf n)) (rscale (B2R q') (vreal w)) <= u * (Rabs (B2R q') * w0) + h).
  { assert (Hpt : forall i, (i < n)%nat -> fin (fmul q' (vnth (B754_zero false) i w)) /\ B2R (fmul q' (vnth (B754_zero false) i w)) = rnd (B2R q' * fval i w)).
    { intros i Hi. apply mul_ok; [exact F3|apply Fw; exact Hi|]. fold (fval i w).
      assert (Hwi : Rabs (fval i w) <= w0).
      { apply sq_le_abs; [lra|]. unfold w0. rewrite rnorm_sq. pose proof (rdot_ge n (vreal w) i Hi) as Q. rewrite vnth_real in Q by exact Hi. exact Q. }
      assert (B : Rabs (B2R q' * fval i w) <= 1081 / 1000 * C + 24 / 10 * h).
      { rewrite Rabs_mult. eapply Rle_trans; [|exact Hq3]. apply Rmult_le_compat_l; [apply Rabs_pos|exact Hwi]. }
      set (z := B2R q' * fval i w) in *. pose proof (@rnd_near p e Hp z) as N1. replace (rnd z) with (z + (rnd z - z)) by ring. eapply Rle_lt_trans; [apply Rabs_triang|].
      pose proof (Rabs_pos z). assert (u * Rabs z <= 1 / 128 * Rabs z) by (apply Rmult_le_compat_r; lra). lra. }
    assert (Hnth : forall i, (i < n)%nat -> vnth (B754_zero false) i (@projection S n c w : vec bf n) = fmul q' (vnth (B754_zero false) i w)).
    { intros i Hi. unfold projection, vscale. exact (vnth_map (fun a : bf => fmul q' a) (B754_zero false) (B754_zero false) n w i Hi). }
    split.
    - intros i Hi. rewrite (Hnth i Hi). apply Hpt, Hi.
    - unfold rdist, h, w0. rewrite <- rnorm_scale. apply rnorm_errors; [lra|lra|]. intros i Hi.
      unfold rsub, rscale. rewrite (vnth_vmap2 0 0 0), (vnth_map _ 0 0), !vnth_real by exact Hi. unfold fval at 1. rewrite (Hnth i Hi), (proj2 (Hpt i Hi)). apply rnd_near. }
  destruct Hs as [Fs Hs]. set (s := @projection S n c w : vec bf n) in *.
  assert (Hsq : rdist (vreal s) (rscale q (vreal w)) <= 23 / 10 * (ku * C) + 22 / 10 * (u * C) + 35 / 10 * h).
  { eapply Rle_trans; [apply (rdist_triangle _ (rscale (B2R q') (vreal w)))|]. rewrite rdist_scale. fold w0.
    assert (B1 : u * (Rabs (B2R q') * w0) <= u * (1081 / 1000 * C + 24 / 10 * h)) by (apply Rmult_le_compat_l; lra). lra. }
  assert (Eq : rscale q (vreal w) = rscale (rdot (vreal c) (vreal w) / rdot (vreal w) (vreal w)) (vreal w)).
  { unfold q, T. rewrite <- (rnorm_sq (vreal w)). reflexivity. }
  assert (Hcs : rdist (rsub (vreal c) (vreal s)) (rrej (vreal c) (vreal w)) <= 23 / 10 * (ku * C) + 22 / 10 * (u * C) + 35 / 10 * h).
  { unfold rrej. eapply Rle_trans; [apply rdist_sub_sub|]. rewrite rdist_self, <- Eq. lra. }
  assert (Hww : 0 < rdot (vreal w) (vreal w)). { rewrite <- rnorm_sq. fold w0. nra. }
  pose proof (rrej_le n (vreal c) (vreal w) Hww) as Hrej. fold C in Hrej.
  assert (Hcs2 : rdist (vreal c) (vreal s) <= 11 / 10 * C + 35 / 10 * h).
  { pose proof (rnorm_close n (rsub (vreal c) (vreal s)) (rrej (vreal c) (vreal w))) as Q. apply Rabs_le_inv in Q. rewrite rnorm_rdist in Q. lra. }
  assert (Hcs0 : 0 <= rdist (vreal c) (vreal s)) by apply rdist_nonneg.
  assert (Hsq2 : (11 / 10 * C + 35 / 10 * h) * (11 / 10 * C + 35 / 10 * h) <= 16 / 10 * E) by nra.
  destruct (sub_near fc fs fa fpi n c s Hk Fc Fs) as (R1 & R2 & R3).
  { rewrite E3. eapply Rle_trans; [|apply Rle_trans with (16 / 10 * E); [exact Hsq2|lra]]. apply Rmult_le_compat; assumption. }
  change (@vsub (IEEE p e Hp He fc fs fa fpi) n c s) with r in R1, R2, R3.
  set (D := rdist (vreal c) (vreal s)) in *. apply Rabs_le_inv in R3.
  assert (HuD : u * D <= u * (11 / 10 * C + 35 / 10 * h)) by (apply Rmult_le_compat_l; lra).
  pose proof (rnorm_nonneg (vreal r)) as Hr0.
  assert (Hr1 : rnorm (vreal r) <= 12 / 10 * C + 4 * h) by lra.
  split; [exact R1|]. split; [|split].
  - rewrite E2. apply Rle_trans with ((12 / 10 * C + 4 * h) * (12 / 10 * C + 4 * h)); [apply Rmult_le_compat; lra|].
    assert (B1 : C * h <= C * (1 / 2048)) by (apply Rmult_le_compat_l; lra). assert (B2 : h * h <= h * (1 / 2048)) by (apply Rmult_le_compat_l; lra). lra.
  - lra.
  - eapply Rle_trans; [apply (rdist_triangle _ (rsub (vreal c) (vreal s)))|].
    replace ((5 / 2 * k + 7 / 2) * u * C) with (5 / 2 * (ku * C) + 7 / 2 * (u * C)) by (unfold ku; ring). lra.
Qed.

(** the length of a computed rejection, for a direction [w] near the unit vector [d] *)
Lemma rej_length_err n (x y w : vec bf n) (d : vec R n) : (1 <= n)%nat -> (INR n + 3) * u <= 1 / 32 -> in_reach x y -> finite_pt w ->
  rnorm d = 1 -> rdist (vreal w) d <= (INR n + 3) * u ->
  let a := rsub (vreal x) (vreal y) in let c := @vsub S n x y : vec bf n in
  let l := @vlength S n (@rejection S n c w) : bf in let t := @dot S n c w : bf in
  let A := rdist (vreal x) (vreal y) in
  fin l /\ Rabs (B2R l - rnorm (rrej a d)) <= (5 * INR n + 13) * u * A + 3 * sqrt (INR n * eta) /\
  fin t /\ Rabs (B2R t - rdot a d) <= (21 / 10 * INR n + 52 / 10) * u * A + 11 / 10 * (INR n * eta).
Proof.
  intros Hn1 Hn HR Fw Hd Hwd a c l t A. pose proof (@u_pos p) as Hu. pose proof (@eta_pos p e) as Hh0. pose proof (@emax_pos p e Hp He) as Hpe.
  pose proof (eta_small n Hn) as Hh. assert (Hin : 1 <= INR n) by (apply (le_INR 1); lia).
  assert (Hu1 : u <= 1 / 128) by nra. assert (Hk : (INR n + 1) * u <= 1 / 32) by nra.
  destruct (sub_reach fc fs fa fpi n x y Hk HR) as (Fc & HC & Hca & HCA). fold S in Fc, HC, Hca, HCA. fold c A in Fc, HC, Hca, HCA. fold a in Hca.
  assert (HA0 : 0 <= A) by apply rdist_nonneg. set (C := rnorm (vreal c)) in *. apply Rabs_le_inv in HCA. assert (HC0 : 0 <= C) by apply rnorm_nonneg.
  pose proof (rnorm_close n (vreal w) d) as Hw. rewrite Hd in Hw. assert (Hw' : Rabs (rnorm (vreal w) - 1) <= 1 / 32) by lra. clear Hw.
  destruct (rejection_err n c w Hn1 Hn Fc Fw Hw' HC) as (R1 & R2 & R3 & R4). fold C in R3, R4.
  set (r := @rejection S n c w : vec bf n) in *. set (w0 := rnorm (vreal w)) in *. apply Rabs_le_inv in Hw'.
  destruct (length_abs_err fc fs fa fpi n r Hk R1 R2) as (L1 & L2 & L3). fold S in L1, L2, L3. fold l in L1, L2, L3.
  set (h := INR n * eta) in *. assert (Hh1 : 0 < h) by (unfold h; nra).
  assert (Hww : 0 < rdot (vreal w) (vreal w)). { rewrite <- rnorm_sq. fold w0. nra. }
  pose proof (rnorm_close n (vreal r) (rrej (vreal c) (vreal w))) as B1.
  pose proof (rrej_point n (vreal c) a (vreal w) Hww) as B2.
  pose proof (rrej_dir n a (vreal w) d Hd ltac:(fold w0; lra)) as B3. fold w0 in B3. change (rnorm a) with A in B3.
  assert (Hiw : Rmax 1 (/ w0) <= 32 / 31).
  { apply Rmax_lub; [lra|]. replace (32 / 31) with (/ (31 / 32)) by field. apply Rinv_le_contravar; lra. }
  set (k := INR n + 1) in *. set (ku := k * u) in *. assert (Hku0 : 0 <= ku) by (unfold ku, k; nra).
  assert (HnA : (INR n + 3) * u = ku + 2 * u) by (unfold ku, k; ring). rewrite HnA in *.
  assert (B4 : A * rdist (vreal w) d * Rmax 1 (/ w0) <= A * (ku + 2 * u) * (32 / 31)).
  { apply Rmult_le_compat; try lra; [apply Rmult_le_pos; [lra|apply rdist_nonneg]|pose proof (Rmax_l 1 (/ w0)); lra|apply Rmult_le_compat_l; lra]. }
  assert (HkA0 : 0 <= ku * A) by (apply Rmult_le_pos; lra). assert (HuA0 : 0 <= u * A) by (apply Rmult_le_pos; lra).
  assert (HuA : u * A <= 1 / 128 * A) by (apply Rmult_le_compat_r; lra). assert (HkA : ku * A <= 1 / 32 * A) by (apply Rmult_le_compat_r; lra).
  assert (HCA2 : C <= 129 / 128 * A) by lra.
  assert (HkC : ku * C <= ku * (129 / 128 * A)) by (apply Rmult_le_compat_l; lra). assert (HuC : u * C <= u * (129 / 128 * A)) by (apply Rmult_le_compat_l; lra).
  assert (Huh : u * h <= 1 / 128 * h) by (apply Rmult_le_compat_r; lra). assert (Hkh : ku * h <= 1 / 32 * h) by (apply Rmult_le_compat_r; lra).
  split; [exact L1|]. split.
  - replace ((5 / 2 * k + 7 / 2) * u * C) with (5 / 2 * (ku * C) + 7 / 2 * (u * C)) in R4 by (unfold ku; ring).
    replace (56 / 100 * k * u + 102 / 100 * u) with (56 / 100 * ku + 102 / 100 * u) in L3 by (unfold ku; ring).
    assert (B5 : (56 / 100 * ku + 102 / 100 * u) * rnorm (vreal r) <= (56 / 100 * ku + 102 / 100 * u) * (12 / 10 * C + 5 * h)) by (apply Rmult_le_compat_l; lra).
    assert (Hsh : 42 / 10 * h <= sqrt h).
    { pose proof (sqrt_pos h) as Q0. pose proof (sqrt_def h ltac:(lra)) as Q1. assert (Q2 : sqrt h <= 1 / 40).
      { rewrite <- (sqrt_square (1 / 40)) by lra. apply sqrt_le_1_alt. lra. }
      assert (Q3 : sqrt h * sqrt h <= 1 / 40 * sqrt h) by (apply Rmult_le_compat_r; lra). lra. }
    replace ((5 * INR n + 13) * u * A) with (5 * (ku * A) + 8 * (u * A)) by (unfold ku, k; ring).
    apply Rabs_le_inv in L3. apply Rabs_le_inv in B1. apply Rabs_le_inv in B2. apply Rabs_le_inv in B3. apply Rabs_le. lra.
  - destruct (dot_err2 n c w Hk Fc Fw) as [F1 D1].
    { fold C w0. assert (Hp7 : (7 <= p)%Z). { assert (Q : u <= bpow radix2 (-7)) by (cbn; lra). apply le_bpow in Q. lia. }
      assert (HE : 16 <= bpow radix2 (e - 4)) by (apply (bpow_le radix2 4); lia).
      assert (E2 : bpow radix2 (e - 2) = 4 * bpow radix2 (e - 4)) by (replace (e - 2)%Z with (2 + (e - 4))%Z by lia; rewrite bpow_plus; reflexivity).
      apply Rle_trans with (C * (33 / 32)); [apply Rmult_le_compat_l; lra|]. assert (0 <= (C - 1) * (C - 1)) by apply Rle_0_sqr. lra. }
    split; [exact F1|]. fold C w0 h t in D1. change (INR n + 1) with k in D1. fold ku in D1.
    assert (D2 : Rabs (rdot (vreal c) (vreal w) - rdot a (vreal w)) <= u * A * (33 / 32)).
    { rewrite <- rdot_sub_l. eapply Rle_trans; [apply cauchy_schwarz|]. fold w0. apply Rmult_le_compat; try lra; [apply rnorm_nonneg|exact Hca]. }
    assert (D3 : Rabs (rdot a (vreal w) - rdot a d) <= A * (ku + 2 * u)).
    { rewrite <- rdot_sub_r. eapply Rle_trans; [apply cauchy_schwarz|]. apply Rmult_le_compat_l; [exact HA0|exact Hwd]. }
    assert (D4 : 32 / 31 * ku * (C * w0) <= 32 / 31 * ku * (129 / 128 * A * (33 / 32))).
    { apply Rmult_le_compat_l; [lra|]. apply Rmult_le_compat; lra. }
    replace ((21 / 10 * INR n + 52 / 10) * u * A) with (21 / 10 * (ku * A) + 31 / 10 * (u * A)) by (unfold ku, k; field).
    apply Rabs_le_inv in D1. apply Rabs_le_inv in D2. apply Rabs_le_inv in D3. apply Rabs_le. lra.
Qed.
End Line.
