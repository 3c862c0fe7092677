(** * Rounding errors of the queries of a cone *)

From Coq Require Import Bool Lia ZArith Reals Lra Psatz.
From Flocq Require Import Core BinarySingleNaN.
From Verif Require Import Scalar Linal Result SpecReal VecR VecLemmas SpecIEEE SpecFloatErr SpecFloatCone ModelShapes
  ProofRound ProofIEEE ProofFloatErr ProofFloatNorm ProofFloatSphere PropFloatNorm.
Local Open Scope R_scope.

(** ** The arc tangent *)
Lemma atan_nonneg x : 0 <= x -> 0 <= atan x.
Proof. intros [H|<-]; [|rewrite atan_0; lra]. rewrite <- atan_0. left. now apply atan_increasing. Qed.
Lemma atan_mean x y : x < y -> exists c, atan y - atan x = / (1 + c * c) * (y - x) /\ x < c < y.
Proof.
  intros H. destruct (MVT_cor2 atan (fun c => / (1 + c ^ 2)) x y H (fun c _ => derivable_pt_lim_atan c)) as (c & E & Hc).
  exists c. split; [|exact Hc]. rewrite E. f_equal. f_equal. ring.
Qed.
Lemma atan_close x y : Rabs (atan y - atan x) <= Rabs (y - x).
Proof.
  assert (K : forall x y, x < y -> Rabs (atan y - atan x) <= Rabs (y - x)).
  { clear. intros x y H. destruct (atan_mean x y H) as (c & -> & Hc). rewrite Rabs_mult.
    assert (Hi : 0 < / (1 + c * c)) by (apply Rinv_0_lt_compat; nra). rewrite (Rabs_pos_eq (/ _)) by lra.
    assert (/ (1 + c * c) <= 1) by (rewrite <- Rinv_1; apply Rinv_le_contravar; nra). pose proof (Rabs_pos (y - x)). nra. }
  destruct (Rtotal_order x y) as [H|[->|H]].
  - now apply K.
  - unfold Rminus. rewrite !Rplus_opp_r. lra.
  - rewrite Rabs_minus_sym, (Rabs_minus_sym y). now apply K.
Qed.
Lemma atan_up x c : 0 <= x -> 1 <= c -> atan (c * x) <= c * atan x.
Proof.
  intros [Hx|<-] Hc; [|rewrite Rmult_0_r, atan_0; lra]. destruct Hc as [Hc|<-]; [|rewrite !Rmult_1_l; lra].
  assert (Hy : x < c * x) by nra. destruct (atan_mean x (c * x) Hy) as (b & Eb & Hb). destruct (atan_mean 0 x Hx) as (a & Ea & Ha).
  rewrite atan_0, !Rminus_0_r in Ea.
  assert (Hi : / (1 + b * b) <= / (1 + a * a)) by (apply Rinv_le_contravar; nra).
  assert (/ (1 + b * b) * (c * x - x) <= / (1 + a * a) * (c * x - x)) by (apply Rmult_le_compat_r; lra).
  apply Rle_trans with (atan x + / (1 + a * a) * (c * x - x)); [lra|]. rewrite Ea. right. ring.
Qed.
Lemma atan_scale x c w : 0 <= x -> Rabs (c - 1) <= w -> w < 1 -> Rabs (atan (c * x) - atan x) <= w * atan x.
Proof.
  intros Hx Hc Hw. pose proof (atan_nonneg x Hx) as Ha. apply Rabs_le_inv in Hc. destruct (Rle_or_lt 1 c) as [H|H].
  - pose proof (atan_up x c Hx H) as U.
    assert (atan x <= atan (c * x)).
    { destruct (Rle_lt_or_eq_dec x (c * x) ltac:(nra)) as [E|<-]; [left; now apply atan_increasing|lra]. }
    rewrite Rabs_pos_eq by lra. nra.
  - assert (H1 : 1 <= / c) by (rewrite <- Rinv_1; apply Rinv_le_contravar; lra).
    assert (H0 : 0 <= c * x) by nra. pose proof (atan_up (c * x) (/ c) H0 H1) as U.
    replace (/ c * (c * x)) with x in U by (field; lra).
    assert (V : c * atan x <= atan (c * x)).
    { apply Rmult_le_reg_l with (/ c); [apply Rinv_0_lt_compat; lra|]. rewrite <- Rmult_assoc, Rinv_l, Rmult_1_l by lra. exact U. }
    assert (atan (c * x) <= atan x).
    { destruct (Rle_lt_or_eq_dec (c * x) x ltac:(nra)) as [E| ->]; [left; now apply atan_increasing|lra]. }
    rewrite Rabs_left1 by lra. nra.
Qed.

(** distance to the hypotenuse with a changed leg *)
Lemma hyp_near a b c : Rabs (sqrt (a * a + b * b) - sqrt (a * a + c * c)) <= Rabs (b - c).
Proof.
  assert (N : forall x, 0 <= a * a + x * x) by (intros; nra).
  pose proof (sqrt_pos (a * a + b * b)) as P1. pose proof (sqrt_pos (a * a + c * c)) as P2.
  pose proof (sqrt_sqrt _ (N b)) as S1. pose proof (sqrt_sqrt _ (N c)) as S2.
  set (s := sqrt (a * a + b * b)) in *. set (t := sqrt (a * a + c * c)) in *.
  assert (Hb : Rabs b <= s). { apply Rsqr_incr_0_var; [|exact P1]. unfold Rsqr. rewrite Rabs_mult_self. nra. }
  assert (Hc : Rabs c <= t). { apply Rsqr_incr_0_var; [|exact P2]. unfold Rsqr. rewrite Rabs_mult_self. nra. }
  apply Rsqr_incr_0_var; [|apply Rabs_pos]. unfold Rsqr. rewrite !Rabs_mult_self.
  assert (ST : 0 <= s * t) by (apply Rmult_le_pos; assumption).
  assert (D : a * a + b * c <= s * t).
  { destruct (Rle_or_lt (a * a + b * c) 0) as [G|G]; [lra|]. apply Rsqr_incr_0_var; [|exact ST]. unfold Rsqr.
    replace (s * t * (s * t)) with ((a * a + b * b) * (a * a + c * c)) by (rewrite <- S1, <- S2; ring).
    pose proof (Rle_0_sqr (a * (b - c))) as Q. unfold Rsqr in Q.
    replace ((a * a + b * b) * (a * a + c * c)) with ((a * a + b * c) * (a * a + b * c) + a * (b - c) * (a * (b - c))) by ring. lra. }
  replace ((s - t) * (s - t)) with (s * s + t * t - 2 * (s * t)) by ring. replace ((b - c) * (b - c)) with (b * b + c * c - 2 * (b * c)) by ring. lra.
Qed.

Section Cone.
Context {p e : Z} {Hp : Prec_gt_0 p} {He : Prec_lt_emax p e}.
Notation bf := (binary_float p e).
Notation fin x := (is_finite x = true).
Notation fadd := (@Bplus p e Hp He mode_NE).
Notation fmul := (@Bmult p e Hp He mode_NE).
Notation fdiv := (@Bdiv p e Hp He mode_NE).
Notation fsqrt := (@Bsqrt p e Hp He mode_NE).
Notation u := (uround p).
Context (fc fs fa : bf -> bf) (fpi : bf).
Notation S := (IEEE p e Hp He fc fs fa fpi).

Lemma square_zero (x : bf) : fin x -> fadd (fmul x x) (B754_zero false) = fmul x x.
Proof.
  intros F. destruct (square_spec (Hp := Hp) (He := He) x F) as [(-> & _)|(F2 & _ & Sg)]; [reflexivity|].
  destruct (fmul x x) as [[]|[]| |[] ? ? ?]; try discriminate; reflexivity.
Qed.
Lemma hyp_length (x y : bf) : fin y -> fsqrt (fadd (fmul x x) (fmul y y)) = @vlength S 2 (x, (y, tt)).
Proof.
  intros F. change (@vlength S 2 (x, (y, tt))) with (fsqrt (fadd (fmul x x) (fadd (fmul y y) (B754_zero false)))).
  now rewrite square_zero.
Qed.

Lemma p7 : 128 * u <= 1 -> (7 <= p)%Z.
Proof.
  intros H. change 128 with (bpow radix2 7) in H. unfold uround in H. rewrite <- bpow_plus in H. change 1 with (bpow radix2 0) in H.
  apply le_bpow in H. lia.
Qed.

(** the computed height *)
Lemma height_range (k K : Z) (mid peak : vec bf 3) : 128 * u <= 1 -> finite_pt mid -> finite_pt peak ->
  moderate k K (@vsub S 3 peak mid : vec bf 3) ->
  let h := @segment_length S 3 (@mkSegment S 3 mid peak) : bf in let H := rdist (vreal peak) (vreal mid) in
  fin h /\ 0 < H /\ Rabs (B2R h - H) <= 6 * u * H /\ bpow radix2 (k - 1) <= B2R h <= bpow radix2 (K + 1).
Proof.
  intros Hu Fm Fp Hm h H. pose proof (@u_pos p) as U. assert (Hn : (INR 3 + 1) * u <= 1 / 32) by (cbn; lra).
  destruct (C65_segment p e Hp He fc fs fa fpi 3 k K (@mkSegment S 3 mid peak) Hn Fm Fp Hm) as (F & E & _).
  cbn [g_source g_target] in E. fold H in E. change (@segment_length S 3 (@mkSegment S 3 mid peak)) with h in E, F. replace ((INR 3 + 3) * u) with (6 * u) in E by (cbn; ring).
  destruct (length_err fc fs fa fpi 3 _ k K Hn Hm) as (N0 & _ & Nk & NE).
  change (@vlength S 3 (@vsub S 3 peak mid)) with h in NE.
  replace (55 / 100 * (INR 3 + 1) * u + 102 / 100 * u) with (322 / 100 * u) in NE by (cbn; field).
  destruct Hm as (_ & _ & _ & Hle & _).
  set (v := @vsub S 3 peak mid : vec bf 3) in *.
  assert (V : rnorm (vreal v) * rnorm (vreal v) <= 3 * (bpow radix2 K * bpow radix2 K)).
  { rewrite rnorm_sq. pose proof (Hle 0%nat ltac:(lia)) as A. pose proof (Hle 1%nat ltac:(lia)) as B. pose proof (Hle 2%nat ltac:(lia)) as C.
    clear - A B C. destruct v as (x & y & z & []). unfold fval in *. cbn in *. pose proof (Rabs_mult_self (B2R x)). pose proof (Rabs_mult_self (B2R y)). pose proof (Rabs_mult_self (B2R z)).
    assert (M : forall w, Rabs w <= bpow radix2 K -> Rabs w * Rabs w <= bpow radix2 K * bpow radix2 K) by (intros w Hw; apply Rmult_le_compat; try apply Rabs_pos; exact Hw).
    apply M in A, B, C. lra. }
  set (N := rnorm (vreal v)) in *. apply Rabs_le_inv in NE.
  assert (B : 322 / 100 * u * N <= 322 / 12800 * N) by nra.
  assert (Bk : bpow radix2 k = 2 * bpow radix2 (k - 1)). { change 2 with (bpow radix2 1). rewrite <- bpow_plus. f_equal. lia. }
  assert (BK : bpow radix2 (K + 1) = 2 * bpow radix2 K). { change 2 with (bpow radix2 1). rewrite <- bpow_plus. f_equal. lia. }
  pose proof (bpow_gt_0 radix2 (k - 1)) as G1. pose proof (bpow_gt_0 radix2 K) as G2.
  assert (NK : N <= 175 / 100 * bpow radix2 K) by nra.
  assert (Hl : bpow radix2 (k - 1) <= B2R h) by lra.
  split; [exact F|]. split; [|split; [exact E|]].
  - apply Rabs_le_inv in E. assert (H0 : 0 <= H) by apply rdist_nonneg. destruct H0 as [H0|H0]; [exact H0|]. rewrite <- H0 in E. lra.
  - split; [exact Hl|]. lra.
Qed.

Lemma slant_err (k K : Z) (mid peak : vec bf 3) (r : bf) : 128 * u <= 1 -> finite_pt mid -> finite_pt peak ->
  moderate k K (@vsub S 3 peak mid : vec bf 3) -> (10 - e <= 2 * k)%Z -> (2 * K + 5 <= e)%Z -> fin r -> 0 <= B2R r <= bpow radix2 K ->
  let s := @cone_slant_height S (@cone_make S mid peak r) : bf in let H := rdist (vreal peak) (vreal mid) in let HY := sqrt (B2R r * B2R r + H * H) in
  fin s /\ Rabs (B2R s - HY) <= 9 * u * HY.
Proof.
  intros Hu Fm Fp Hm Hk HK Fr Hr s H HY. pose proof (@u_pos p) as U.
  destruct (height_range k K mid peak Hu Fm Fp Hm) as (Fh & H0 & Eh & Rh). set (h := @segment_length S 3 (@mkSegment S 3 mid peak) : bf) in *. fold H in H0, Eh.
  pose proof (bpow_gt_0 radix2 (k - 1)) as G1.
  assert (BK : bpow radix2 (K + 1) = 2 * bpow radix2 K). { change 2 with (bpow radix2 1). rewrite <- bpow_plus. f_equal. lia. }
  assert (Es : s = @vlength S 2 (r, (h, tt))) by exact (hyp_length r h Fh).
  assert (M2 : @moderate p e 2 (k - 1) (K + 1) (r, (h, tt))).
  { split; [intros [|[|i]] Hi; [exact Fr|exact Fh|lia]|]. split; [lia|]. split.
    - replace (INR 2) with (bpow radix2 1) by (cbn; lra). rewrite <- bpow_plus. apply bpow_le. lia.
    - split.
      + intros [|[|i]] Hi; [| |lia]; unfold fval; cbn [vnth fst snd]; rewrite Rabs_pos_eq; lra.
      + exists 1%nat. split; [lia|]. unfold fval; cbn [vnth fst snd]. rewrite Rabs_pos_eq; lra. }
  destruct (length_err fc fs fa fpi 2 (r, (h, tt)) (k - 1) (K + 1) ltac:(cbn; lra) M2) as (N0 & Fs & _ & NE).
  rewrite <- Es in Fs, NE. split; [exact Fs|].
  replace (55 / 100 * (INR 2 + 1) * u + 102 / 100 * u) with (267 / 100 * u) in NE by (cbn; field).
  assert (En : rnorm (@vreal p e 2 (r, (h, tt))) = sqrt (B2R r * B2R r + B2R h * B2R h)).
  { unfold rnorm, vreal. cbn. f_equal. ring. }
  rewrite En in NE. pose proof (hyp_near (B2R r) (B2R h) H) as D. fold HY in D. set (W := sqrt (B2R r * B2R r + B2R h * B2R h)) in *.
  assert (ZH : H <= HY). { apply Rsqr_incr_0_var; [|apply sqrt_pos]. unfold Rsqr, HY. rewrite sqrt_sqrt by nra. nra. }
  assert (D2 : Rabs (W - HY) <= 6 * u * HY). { eapply Rle_trans; [exact D|]. eapply Rle_trans; [exact Eh|]. apply Rmult_le_compat_l; lra. }
  apply Rabs_le_inv in D2. apply Rabs_le_inv in NE.
  assert (WZ : W <= HY + 6 / 128 * HY) by nra.
  assert (267 / 100 * u * W <= 267 / 100 * u * (HY + 6 / 128 * HY)) by (apply Rmult_le_compat_l; lra).
  assert (0 <= u * HY) by nra. apply Rabs_le. lra.
Qed.

Lemma angle_err (d : R) (k K : Z) (mid peak : vec bf 3) (r : bf) : 128 * u <= 1 -> finite_pt mid -> finite_pt peak ->
  moderate k K (@vsub S 3 peak mid : vec bf 3) -> (10 - e <= 2 * k)%Z -> (2 * K + 5 <= e)%Z -> fin r -> 0 <= B2R r <= bpow radix2 K ->
  atan_accurate d fa -> 0 <= d <= 1 / 4 ->
  let s := @cone_opening_angle S (@cone_make S mid peak r) : bf in let A := atan (B2R r / rdist (vreal peak) (vreal mid)) in
  fin s /\ Rabs (B2R s - 2 * A) <= (8 * u + 2 * d) * (2 * A) + 6 * uflow p e.
Proof.
  intros Hu Fm Fp Hm Hk HK Fr Hr Ha Hd s A. pose proof (@u_pos p) as U. pose proof (p7 Hu) as P7.
  destruct (@emax_pos p e Hp He) as (_ & Hpe).
  destruct (height_range k K mid peak Hu Fm Fp Hm) as (Fh & H0 & Eh & Rh). set (h := @segment_length S 3 (@mkSegment S 3 mid peak) : bf) in *.
  set (H := rdist (vreal peak) (vreal mid)) in *.
  pose proof (bpow_gt_0 radix2 (k - 1)) as G1.
  assert (Et : uflow p e = @eta p e) by reflexivity. pose proof (@eta_pos p e) as Ep.
  assert (Eta : uflow p e <= 1 / 128). { unfold uflow. replace (1 / 128) with (bpow radix2 (-7)) by (cbn; field). apply bpow_le. lia. }
  set (x := B2R r / H) in *. assert (Hx : 0 <= x). { unfold x. apply Rmult_le_pos; [lra|]. left. now apply Rinv_0_lt_compat. }
  (* the quotient *)
  set (c := H / B2R h). assert (Hc : Rabs (c - 1) <= 63 / 10 * u).
  { unfold c. replace (H / B2R h - 1) with ((H - B2R h) / B2R h) by (field; lra). unfold Rdiv. rewrite Rabs_mult, Rabs_minus_sym, (Rabs_pos_eq (/ _)) by (left; apply Rinv_0_lt_compat; lra).
    apply Rmult_le_reg_r with (B2R h); [lra|]. rewrite Rmult_assoc, Rinv_l, Rmult_1_r by lra. eapply Rle_trans; [exact Eh|].
    apply Rabs_le_inv in Eh. assert (6 * u * H <= 6 / 128 * H) by nra.
    assert (u * (6 * H) <= u * (63 / 10 * B2R h)) by (apply Rmult_le_compat_l; lra). lra. }
  assert (Eq : B2R r / B2R h = c * x) by (unfold c, x; field; lra).
  assert (Q1 : B2R r / B2R h <= bpow radix2 (e - 1)).
  { apply Rmult_le_reg_r with (B2R h); [lra|]. unfold Rdiv. rewrite Rmult_assoc, Rinv_l, Rmult_1_r by lra.
    apply Rle_trans with (bpow radix2 K); [lra|]. apply Rle_trans with (bpow radix2 (e - 1) * bpow radix2 (k - 1)); [|apply Rmult_le_compat_l; [apply bpow_ge_0|lra]].
    rewrite <- bpow_plus. apply bpow_le. lia. }
  assert (Q0 : 0 <= B2R r / B2R h). { apply Rmult_le_pos; [lra|]. left. apply Rinv_0_lt_compat. lra. }
  destruct (div_ok (Hp := Hp) (He := He) r h Fr ltac:(lra)) as (Fq & Bq).
  { rewrite Rabs_pos_eq by (apply rnd_nonneg; exact Q0). apply Rle_lt_trans with (bpow radix2 (e - 1)); [|apply bpow_lt; lia].
    rewrite <- (rnd_id (p := p) (e := e) (bpow radix2 (e - 1))) by (apply fmt_pow; lia). apply rnd_le. exact Q1. }
  set (q := fdiv r h) in *.
  assert (Aq : Rabs (atan (B2R q) - A) <= 74 / 10 * u * A + uflow p e).
  { rewrite Bq, Eq. destruct (@rnd_err p e Hp (c * x)) as (ep & et & H1 & H2 & ->).
    replace (c * x * (1 + ep) + et) with (c * (1 + ep) * x + et) by ring.
    assert (C1 : Rabs (c * (1 + ep) - 1) <= 74 / 10 * u).
    { replace (c * (1 + ep) - 1) with ((c - 1) + ep + (c - 1) * ep) by ring.
      assert (Rabs ((c - 1) * ep) <= 1 / 10 * u).
      { rewrite Rabs_mult. apply Rle_trans with (63 / 10 * u * u); [apply Rmult_le_compat; try apply Rabs_pos; assumption|]. nra. }
      eapply Rle_trans; [apply Rabs_triang|]. eapply Rle_trans; [apply Rplus_le_compat_r, Rabs_triang|]. lra. }
    replace (atan (c * (1 + ep) * x + et) - A) with ((atan (c * (1 + ep) * x + et) - atan (c * (1 + ep) * x)) + (atan (c * (1 + ep) * x) - atan x)) by (unfold A; ring).
    eapply Rle_trans; [apply Rabs_triang|]. rewrite Rplus_comm. apply Rplus_le_compat.
    - apply atan_scale; [exact Hx|exact C1|]. lra.
    - eapply Rle_trans; [apply atan_close|]. replace (c * (1 + ep) * x + et - c * (1 + ep) * x) with et by ring. exact H2. }
  assert (A0 : 0 <= A) by (apply atan_nonneg; exact Hx).
  assert (A2 : A <= 2). { pose proof (atan_bound x) as B. fold A in B. pose proof PI_4. lra. }
  destruct (Ha q Fq) as (Fa & Ea). set (t := fa q) in *.
  assert (Aab : Rabs (atan (B2R q)) <= A + (74 / 10 * u * A + uflow p e)).
  { replace (atan (B2R q)) with (A + (atan (B2R q) - A)) by ring. eapply Rle_trans; [apply Rabs_triang|]. rewrite (Rabs_pos_eq A) by exact A0. lra. }
  assert (T : Rabs (B2R t - A) <= (8 * u + 2 * d) * A + 3 * uflow p e).
  { replace (B2R t - A) with ((B2R t - atan (B2R q)) + (atan (B2R q) - A)) by ring. eapply Rle_trans; [apply Rabs_triang|].
    assert (d * Rabs (atan (B2R q)) <= d * (A + (74 / 10 * u * A + uflow p e))) by (apply Rmult_le_compat_l; lra).
    assert (u * A <= 1 / 128 * A) by nra. assert (0 <= u * A) by nra. assert (0 <= d * A) by nra. assert (d * (u * A) <= d * (1 / 128 * A)) by (apply Rmult_le_compat_l; lra).
    assert (d * uflow p e <= 1 / 4 * uflow p e) by nra. nra. }
  (* doubling *)
  destruct (@one_spec p e Hp He) as (F1 & B1).
  assert (Two : fin (fadd (ieee_pow p e Hp He 1 0) (ieee_pow p e Hp He 1 0)) /\ B2R (fadd (ieee_pow p e Hp He 1 0) (ieee_pow p e Hp He 1 0)) = 2).
  { assert (E2 : rndf p e 2 = 2) by (apply rnd_id; change 2 with (bpow radix2 1); apply fmt_pow; lia).
    destruct (add_ok (Hp := Hp) (He := He) _ _ F1 F1) as (F2 & B2).
    - rewrite B1. replace (1 + 1) with 2 by lra. rewrite E2, Rabs_pos_eq by lra. change 2 with (bpow radix2 1). apply bpow_lt. lia.
    - split; [exact F2|]. rewrite B2, B1. replace (1 + 1) with 2 by lra. exact E2. }
  destruct Two as (F2 & B2).
  assert (Ed : rndf p e (B2R t * 2) = 2 * B2R t) by (rewrite Rmult_comm; apply rnd_id, fmt_double, B2R_fmt).
  assert (Tb : Rabs (2 * B2R t) <= 8).
  { rewrite Rabs_mult, (Rabs_pos_eq 2) by lra. assert (Rabs (B2R t) <= 4); [|lra].
    replace (B2R t) with (A + (B2R t - A)) by ring. eapply Rle_trans; [apply Rabs_triang|]. rewrite (Rabs_pos_eq A) by exact A0.
    assert ((8 * u + 2 * d) * A <= (8 / 128 + 2 / 4) * 2) by (apply Rmult_le_compat; lra). lra. }
  destruct (mul_ok (Hp := Hp) (He := He) t _ Fa F2) as (F3 & B3).
  { rewrite B2, Ed. eapply Rle_lt_trans; [exact Tb|]. change 8 with (bpow radix2 3). apply bpow_lt. lia. }
  change (fmul t (fadd (ieee_pow p e Hp He 1 0) (ieee_pow p e Hp He 1 0))) with s in F3, B3.
  split; [exact F3|]. rewrite B3, B2, Ed. replace (2 * B2R t - 2 * A) with (2 * (B2R t - A)) by ring. rewrite Rabs_mult, (Rabs_pos_eq 2) by lra. lra.
Qed.
End Cone.
