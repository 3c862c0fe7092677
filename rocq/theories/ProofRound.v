(** * Rounding facts for binary floating point formats: the square root of a rounded square *)

From Coq Require Import ZArith Reals Lra Lia Psatz.
From Flocq Require Import Core BinarySingleNaN.
Local Open Scope R_scope.

(** rounding to nearest even in the format with precision [p] and largest exponent [e] (overflow aside) *)
Definition fexpf (p e : Z) := FLT_exp (3 - e - p) p.
Definition rndf (p e : Z) (x : R) : R := round radix2 (fexpf p e) ZnearestE x.
Definition fmtf (p e : Z) (x : R) : Prop := generic_format radix2 (fexpf p e) x.

Section Round.
Context {p e : Z} {Hp : Prec_gt_0 p} {He : Prec_lt_emax p e}.
Notation fexp := (fexpf p e).
Notation rnd := (rndf p e).
Notation fmt := (fmtf p e).

#[local] Instance valid_f : Valid_exp fexp := FLT_exp_valid (3 - e - p) p.
#[local] Instance mono_f : Monotone_exp fexp := FLT_exp_monotone (3 - e - p) p.
#[local] Instance validNE : Valid_rnd ZnearestE := valid_rnd_N _.

Lemma rnd_le x y : x <= y -> rnd x <= rnd y.
Proof. apply round_le; typeclasses eauto. Qed.
Lemma rnd_id x : fmt x -> rnd x = x.
Proof. apply round_generic; typeclasses eauto. Qed.
Lemma rnd_fmt x : fmt (rnd x).
Proof. apply generic_format_round; typeclasses eauto. Qed.
Lemma rnd_0 : rnd 0 = 0.
Proof. apply round_0; typeclasses eauto. Qed.
Lemma rnd_nonneg x : 0 <= x -> 0 <= rnd x.
Proof. intros H. rewrite <- rnd_0. apply rnd_le, H. Qed.
Lemma rnd_abs x : rnd (Rabs x) = Rabs (rnd x).
Proof. apply round_NE_abs; typeclasses eauto. Qed.

Context (H2 : (2 < p)%Z).

(** half of the smallest exponent *)
Definition Tf : Z := ((2 - e) / 2)%Z.
Lemma Tf_spec : (2 * Tf <= 2 - e /\ 1 - e <= 2 * Tf /\ 3 - e <= Tf)%Z.
Proof using He H2.
  unfold Tf. pose proof (Z.div_mod (2 - e) 2 ltac:(lia)). pose proof (Z.mod_pos_bound (2 - e) 2 ltac:(lia)).
  pose proof He as He1. unfold Prec_lt_emax in He1. lia.
Qed.

(** small results: the square gives back the argument of the square root *)
Lemma sqrt_back_small s b : fmt s -> 0 <= s -> b = rnd (sqrt s) -> b < bpow radix2 Tf -> rnd (b * b) = s.
Proof.
  intros Fs Hs Eb Hb.
  assert (Hb0 : 0 <= b) by (rewrite Eb; apply rnd_nonneg, sqrt_pos).
  assert (Fb : fmt b) by (rewrite Eb; apply rnd_fmt).
  destruct Tf_spec as (T1 & T2 & T3).
  set (u := bpow radix2 (Tf - p)).
  assert (Hu : 0 < u) by apply bpow_gt_0.
  (* the distance to the next float below 2^Tf *)
  assert (Hbu : b <= bpow radix2 Tf - u).
  { assert (Fp : fmt (bpow radix2 Tf)) by (apply generic_format_bpow; unfold fexpf, FLT_exp; lia).
    replace (bpow radix2 Tf - u) with (pred radix2 fexp (bpow radix2 Tf)).
    - apply pred_ge_gt; try typeclasses eauto; assumption.
    - rewrite pred_bpow. unfold u, fexpf, FLT_exp. rewrite Z.max_l by lia. reflexivity. }
  assert (Herr : Rabs (b - sqrt s) <= / 2 * u).
  { rewrite Eb at 1. unfold rndf. eapply Rle_trans; [apply error_le_half_ulp_round; typeclasses eauto|]. fold (rnd (sqrt s)). rewrite <- Eb.
    apply Rmult_le_compat_l; [lra|]. destruct (Req_dec b 0) as [->|Hne].
    - unfold fexpf. rewrite ulp_FLT_0 by typeclasses eauto. unfold u. apply bpow_le. lia.
    - rewrite ulp_neq_0 by exact Hne. unfold u, cexp, fexpf, FLT_exp. apply bpow_le.
      assert (mag radix2 b <= Tf)%Z by (apply mag_le_bpow; [exact Hne|]; rewrite Rabs_pos_eq by exact Hb0; exact Hb). lia. }
  assert (Hsq : sqrt s * sqrt s = s) by (apply sqrt_sqrt, Hs).
  pose proof (sqrt_pos s) as Hr0. apply Rabs_le_inv in Herr.
  assert (Hdiff : Rabs (b * b - s) < bpow radix2 (2 - e - p)).
  { apply Rlt_le_trans with (/ 2 * u * (2 * bpow radix2 Tf)).
    2: { unfold u. change (/ 2) with (bpow radix2 (-1)). change 2 with (bpow radix2 1). rewrite <- !bpow_plus. apply bpow_le. lia. }
    rewrite <- Hsq. replace (b * b - sqrt s * sqrt s) with ((b - sqrt s) * (b + sqrt s)) by ring.
    rewrite Rabs_mult. rewrite (Rabs_pos_eq (b + sqrt s)) by lra.
    apply Rle_lt_trans with (/ 2 * u * (b + sqrt s)).
    - apply Rmult_le_compat_r; [lra|]. apply Rabs_le. lra.
    - apply Rmult_lt_compat_l; [lra|]. lra. }
  assert (FF : generic_format radix2 (FIX_exp (3 - e - p)) s) by (eapply generic_format_FIX_FLT; exact Fs).
  apply FIX_format_generic in FF. destruct FF as [f Ef Ee].
  assert (Es : s = IZR (Fnum f) * bpow radix2 (3 - e - p)).
  { rewrite Ef at 1. unfold F2R. rewrite Ee. reflexivity. }
  assert (Hc : cexp radix2 fexp (b * b) = (3 - e - p)%Z \/ b = 0).
  { destruct (Req_dec b 0) as [->|Hne]; [right; reflexivity|left]. unfold cexp, fexpf, FLT_exp.
    assert (mag radix2 (b * b) <= 2 * Tf)%Z.
    { apply mag_le_bpow; [apply Rmult_integral_contrapositive; auto|]. rewrite Rabs_pos_eq by (apply Rmult_le_pos; lra).
      replace (2 * Tf)%Z with (Tf + Tf)%Z by lia. rewrite bpow_plus.
      apply Rmult_le_0_lt_compat; lra. }
    lia. }
  destruct Hc as [Hc|H0].
  - unfold rndf, round, scaled_mantissa. rewrite Hc. unfold F2R. cbn [Fnum Fexp]. rewrite Es. f_equal. f_equal.
    apply Znearest_imp. apply (Rmult_lt_reg_r (bpow radix2 (3 - e - p))); [apply bpow_gt_0|].
    replace (/ 2 * bpow radix2 (3 - e - p)) with (bpow radix2 (2 - e - p)).
    2: { change (/ 2) with (bpow radix2 (-1)). rewrite <- bpow_plus. f_equal. lia. }
    rewrite <- (Rabs_pos_eq (bpow radix2 (3 - e - p))) by apply bpow_ge_0. rewrite <- Rabs_mult.
    replace ((b * b * bpow radix2 (- (3 - e - p)) - IZR (Fnum f)) * bpow radix2 (3 - e - p)) with (b * b - s); [exact Hdiff|].
    rewrite Rmult_minus_distr_r, <- Es, Rmult_assoc, <- bpow_plus. replace (- (3 - e - p) + (3 - e - p))%Z with 0%Z by lia. cbn. ring.
  - (* b = 0 *)
    subst b. rewrite H0 in *. rewrite Rmult_0_l, rnd_0. rewrite Rmult_0_l in Hdiff.
    assert (Hlt : Rabs s < bpow radix2 (2 - e - p)) by (rewrite <- Rabs_Ropp; replace (- s) with (0 - s) by ring; exact Hdiff).
    rewrite Es, Rabs_mult, (Rabs_pos_eq (bpow _ _)) in Hlt by apply bpow_ge_0.
    assert (Fnum f = 0%Z).
    { destruct (Z.eq_dec (Fnum f) 0) as [E|E]; [exact E|exfalso].
      assert (1 <= Rabs (IZR (Fnum f))) by (rewrite <- abs_IZR; apply IZR_le; lia).
      pose proof (bpow_gt_0 radix2 (3 - e - p)). assert (bpow radix2 (2 - e - p) < bpow radix2 (3 - e - p)) by (apply bpow_lt; lia). nra. }
    rewrite Es, H. ring.
Qed.

(** other results: the rounded square does not lose enough *)
Lemma sqrt_square_large b : fmt b -> bpow radix2 Tf <= b -> b <= rnd (sqrt (rnd (b * b))).
Proof.
  intros Fb Hb.
  assert (Hb0 : 0 < b) by (eapply Rlt_le_trans; [apply bpow_gt_0|exact Hb]).
  destruct Tf_spec as (T1 & T2 & T3).
  set (k := (mag radix2 b : Z)).
  assert (Hk : bpow radix2 (k - 1) <= b < bpow radix2 k).
  { pose proof (bpow_mag_le radix2 b (Rgt_not_eq _ _ Hb0)). pose proof (bpow_mag_gt radix2 b). rewrite Rabs_pos_eq in * by lra. fold k in H, H0. auto. }
  assert (Hk' : (Tf + 1 <= k)%Z).
  { apply (mag_ge_bpow radix2 b (Tf + 1)). rewrite Rabs_pos_eq by lra. replace (Tf + 1 - 1)%Z with Tf by lia. exact Hb. }
  unfold rndf at 1. apply round_N_ge_midp; try typeclasses eauto; [exact Fb|].
  set (y := rnd (b * b)).
  assert (Hpred : pred radix2 fexp b < b) by (apply pred_lt_id; lra).
  assert (Hp0 : 0 <= pred radix2 fexp b) by (apply pred_ge_0; try typeclasses eauto; assumption).
  assert (Hy0 : 0 <= y) by (apply rnd_nonneg; nra).
  set (m := (b + pred radix2 fexp b) / 2) in *.
  assert (Hm0 : 0 <= m) by (unfold m; lra).
  assert (Hmy : m * m < y).
  { destruct (Req_dec b (bpow radix2 (k - 1))) as [E|Hne].
    - assert (y = b * b) as ->.
      { unfold y. apply rnd_id. rewrite E, <- bpow_plus. apply generic_format_bpow. unfold fexpf, FLT_exp. lia. }
      unfold m in *. nra.
    - set (u := bpow radix2 (k - p)).
      assert (Eu : ulp radix2 fexp b = u).
      { rewrite ulp_neq_0 by lra. unfold cexp, fexpf, FLT_exp, u. f_equal. fold k. lia. }
      assert (Ep : pred radix2 fexp b = b - u).
      { rewrite pred_eq_pos by lra. unfold pred_pos. fold k. destruct (Req_bool_spec b (bpow radix2 (k - 1))); [contradiction|]. rewrite Eu. reflexivity. }
      assert (Hu : 0 < u) by apply bpow_gt_0.
      assert (Hbu : bpow radix2 (k - 1) + u <= b).
      { assert (Hg : bpow radix2 (k - 1) <= pred radix2 fexp b).
        { apply pred_ge_gt; try typeclasses eauto; try assumption; [|lra]. apply generic_format_bpow. unfold fexpf, FLT_exp. lia. }
        rewrite Ep in Hg. lra. }
      assert (Herr : Rabs (y - b * b) <= / 2 * bpow radix2 (2 * k - p)).
      { unfold y, rndf. eapply Rle_trans; [apply error_le_half_ulp; typeclasses eauto|]. apply Rmult_le_compat_l; [lra|].
        rewrite ulp_neq_0 by nra. unfold cexp, fexpf, FLT_exp. apply bpow_le.
        assert (mag radix2 (b * b) <= 2 * k)%Z.
        { apply mag_le_bpow; [nra|]. rewrite Rabs_pos_eq by nra. replace (2 * k)%Z with (k + k)%Z by lia. rewrite bpow_plus. nra. }
        lia. }
      assert (E2 : / 2 * bpow radix2 (2 * k - p) = bpow radix2 (k - 1) * u).
      { unfold u. change (/ 2) with (bpow radix2 (-1)). rewrite <- !bpow_plus. f_equal. lia. }
      rewrite E2 in Herr. apply Rabs_le_inv in Herr. unfold m. rewrite Ep. nra. }
  rewrite <- (sqrt_square m Hm0). apply sqrt_lt_1; [nra|exact Hy0|exact Hmy].
Qed.

(** a computed square root is not larger than the computed root of its computed square *)
Lemma sqrt_square_ge s b : fmt s -> 0 <= s -> b = rnd (sqrt s) -> b <= rnd (sqrt (rnd (b * b))).
Proof.
  intros Fs Hs Eb. destruct (Rlt_le_dec b (bpow radix2 Tf)) as [Hlt|Hge].
  - rewrite (sqrt_back_small s b Fs Hs Eb Hlt). rewrite Eb. apply Rle_refl.
  - apply sqrt_square_large; [rewrite Eb; apply rnd_fmt|exact Hge].
Qed.
End Round.
