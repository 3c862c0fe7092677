(** * Rounding errors of normalised vectors *)

From Coq Require Import Bool Lia ZArith Reals Lra Psatz.
From Flocq Require Import Core BinarySingleNaN.
From Verif Require Import Scalar Linal SpecReal VecR VecLemmas SpecIEEE SpecFloatErr ProofRound ProofIEEE ProofFloatErr.
Local Open Scope R_scope.

Lemma rscale_minus n (a b : R) (z : vec R n) : rsub (rscale a z) (rscale b z) = rscale (a - b) z.
Proof. unfold rsub, rscale. induction n as [|m IH]; [reflexivity|]. destruct z as [y z]. cbn. f_equal; [ring|apply IH]. Qed.

Section Norm.
Context {p e : Z} {Hp : Prec_gt_0 p} {He : Prec_lt_emax p e}.
Notation bf := (binary_float p e).
Notation rnd := (rndf p e).
Notation fmt := (fmtf p e).
Notation fadd := (@Bplus p e Hp He mode_NE).
Notation fmul := (@Bmult p e Hp He mode_NE).
Notation fdiv := (@Bdiv p e Hp He mode_NE).
Notation fsqrt := (@Bsqrt p e Hp He mode_NE).
Notation u := (uround p).
Notation eta := (@eta p e).
Context (fc fs fa : bf -> bf) (fpi : bf).
Let S := IEEE p e Hp He fc fs fa fpi.

Lemma rdot_ge n (v : vec R n) i : (i < n)%nat -> vnth 0 i v * vnth 0 i v <= rdot v v.
Proof.
  revert i. induction n as [|n IH]; intros i Hi; [lia|]. destruct v as [y v]. cbn [rdot fst snd].
  pose proof (rdot_self_nonneg v). destruct i as [|i]; cbn; [nra|]. specialize (IH v i ltac:(lia)). nra.
Qed.

(** the computed length *)
Lemma length_err n (v : vec bf n) k K : (INR n + 1) * u <= 1 / 32 -> moderate k K v ->
  let N := rnorm (vreal v) in
  let l := @vlength S n v in
  0 < N /\ fin l /\ bpow radix2 k <= N /\
  Rabs (B2R l - N) <= (55 / 100 * (INR n + 1) * u + 102 / 100 * u) * N.
Proof.
  intros Hn (Hf & Hk & HK & Hle & i0 & Hi0 & Hge) N l. pose proof (@u_pos p) as Hu. pose proof (@eta_pos p e) as Hh. pose proof (pos_INR n) as Hin.
  destruct (square_sum fc fs fa fpi n v (bpow radix2 (2 * K))) as (F1 & F2 & F3 & F4); try assumption.
  { intros i Hi. specialize (Hle i Hi). replace (2 * K)%Z with (K + K)%Z by lia. rewrite bpow_plus.
    apply Rmult_le_compat; try apply Rabs_pos; exact Hle. }
  set (d := rdot (vreal v) (vreal v)) in *. set (D := @dot S n v v) in *. change (@dot (IEEE p e Hp He fc fs fa fpi) n v v) with D in F1, F2, F3, F4.
  assert (Hd : bpow radix2 (2 * k) <= d).
  { pose proof (rdot_ge n (vreal v) i0 Hi0) as G. rewrite vnth_real in G. rewrite <- Rabs_mult_self in G.
    replace (2 * k)%Z with (k + k)%Z by lia. rewrite bpow_plus. pose proof (bpow_ge_0 radix2 k). fold d in G. nra. }
  assert (Hd0 : 0 < d) by (pose proof (bpow_gt_0 radix2 (2 * k)); lra).
  assert (HN : N * N = d) by apply rnorm_sq. assert (HN0 : 0 <= N) by apply rnorm_nonneg. assert (HN1 : 0 < N) by nra.
  assert (HNk : bpow radix2 k <= N).
  { apply Rnot_lt_le. intros C. replace (2 * k)%Z with (k + k)%Z in Hd by lia. rewrite bpow_plus in Hd. pose proof (bpow_ge_0 radix2 k). nra. }
  assert (Heta : 64 * eta <= u * d).
  { apply Rle_trans with (u * bpow radix2 (2 * k)); [|apply Rmult_le_compat_l; lra]. unfold eta, uround. rewrite <- bpow_plus.
    change 64 with (bpow radix2 6). rewrite <- bpow_plus. apply bpow_le. lia. }
  set (w := (INR n + 1) * u) in *. assert (Hw : 0 <= w) by (unfold w; nra).
  assert (P1 : (1 + u) ^ (n + 1) - 1 <= 32 / 31 * w).
  { pose proof (pow_1_plus_32 u (n + 1) ltac:(lra)) as Q. rewrite plus_INR in Q. cbn [INR] in Q. apply Q. exact Hn. }
  assert (P2 : (1 + u) ^ n <= 32 / 31).
  { assert ((1 + u) ^ n <= (1 + u) ^ (n + 1)) by (apply Rle_pow; [lra|lia]). lra. }
  assert (T : Rabs (B2R D - d) <= 105 / 100 * w * d).
  { eapply Rle_trans; [exact F4|]. assert (A1 : ((1 + u) ^ (n + 1) - 1) * d <= 32 / 31 * w * d) by (apply Rmult_le_compat_r; lra).
    assert (A2 : INR n * (1 + u) ^ n * eta <= INR n * (32 / 31) * (u * d / 64)).
    { apply Rmult_le_compat; [apply Rmult_le_pos; [lra|apply pow_le; lra]|lra|apply Rmult_le_compat_l; lra|lra]. }
    assert (A3 : INR n * u * d <= w * d) by (apply Rmult_le_compat_r; [lra|unfold w; lra]). assert (0 <= w * d) by nra. lra. }
  set (th := (B2R D - d) / d). assert (Eth : B2R D = d * (1 + th)) by (unfold th; field; lra).
  assert (Hth : Rabs th <= 105 / 100 * w).
  { unfold th, Rdiv. rewrite Rabs_mult, (Rabs_pos_eq (/ d)) by (left; apply Rinv_0_lt_compat; lra).
    apply Rmult_le_reg_r with d; [lra|]. rewrite Rmult_assoc, Rinv_l by lra. lra. }
  assert (Hth1 : Rabs th <= 1 / 20) by lra.
  pose proof (sqrt_near th Hth1) as Hs. assert (Hth2 := Hth1). apply Rabs_le_inv in Hth2.
  assert (Es : sqrt (B2R D) = N * sqrt (1 + th)).
  { rewrite Eth, sqrt_mult by lra. f_equal. }
  set (r := sqrt (1 + th)) in *. apply Rabs_le_inv in Hs.
  assert (Hr : Rabs (r - 1) <= 546 / 1000 * w) by (apply Rabs_le; lra). assert (Hr' := Hr). apply Rabs_le_inv in Hr'.
  assert (Hsd : bpow radix2 (2 - e) <= Rabs (sqrt (B2R D))).
  { rewrite Es, Rabs_pos_eq by nra. apply Rle_trans with (bpow radix2 (k - 1)); [apply bpow_le; pose proof (@emax_pos p e Hp He); lia|].
    rewrite <- half_pow. nra. }
  pose proof (rnd_normal _ Hsd) as Hl. rewrite Es in Hl.
  assert (HNr : 0 <= N * r) by nra. rewrite (Rabs_pos_eq _ HNr) in Hl.
  assert (Hnn : nn D) by (right; auto).
  split; [exact HN1|]. destruct (sqrt_spec D Hnn) as [(E & _)|(_ & L1 & L2 & _)]; [rewrite E in F1; discriminate|].
  change (@vlength S n v) with (fsqrt D) in l. split; [exact L1|]. split; [exact HNk|]. unfold l. rewrite L2, Es.
  apply Rabs_le_inv in Hl. apply Rabs_le.
  assert (B1 : u * (N * r) <= u * (N * (102 / 100))) by (apply Rmult_le_compat_l; [lra|]; apply Rmult_le_compat_l; lra).
  assert (B2 : N * r <= N * (1 + 546 / 1000 * w)) by (apply Rmult_le_compat_l; lra).
  assert (B3 : N * (1 - 546 / 1000 * w) <= N * r) by (apply Rmult_le_compat_l; lra).
  assert (B4 : 0 <= w * N) by nra.
  replace (55 / 100 * (INR n + 1) * u) with (55 / 100 * w) by (unfold w; ring). lra.
Qed.

Lemma vnth_map {A B} (f : A -> B) da db n (v : vec A n) i : (i < n)%nat -> vnth db i (vmap f v) = f (vnth da i v).
Proof.
  revert i. induction n as [|n IH]; intros i Hi; [lia|]. destruct v as [x v], i as [|i]; [reflexivity|]. cbn. apply IH. lia.
Qed.

(** the normalised vector *)
Lemma normalize_err n (v : vec bf n) k K : (INR n + 1) * u <= 1 / 32 -> moderate k K v ->
  finite_pt (@normalize S n v) /\
  rdist (vreal (@normalize S n v)) (rdirection (vreal v)) <= (INR n + 3) * u.
Proof.
  intros Hn Hm. destruct (length_err n v k K Hn Hm) as (HN & Hl & HNk & Herr). destruct Hm as (Hf & Hk & HK & Hle & i0 & Hi0 & Hge).
  set (N := rnorm (vreal v)) in *. set (l := @vlength S n v) in *. pose proof (@u_pos p) as Hu. pose proof (@eta_pos p e) as Hh.
  assert (Hn1 : 1 <= INR n) by (apply (le_INR 1); lia).
  set (w := (INR n + 1) * u) in *. replace (55 / 100 * (INR n + 1) * u) with (55 / 100 * w) in Herr by (unfold w; ring).
  assert (Hu1 : 2 * u <= w) by (unfold w; nra).
  set (x := B2R l / N). assert (Ex : B2R l = x * N) by (unfold x; field; lra).
  assert (Hx : Rabs (x - 1) <= 55 / 100 * w + 102 / 100 * u).
  { rewrite Ex in Herr. replace (x * N - N) with ((x - 1) * N) in Herr by ring. rewrite Rabs_mult, (Rabs_pos_eq N) in Herr by lra.
    apply Rmult_le_reg_r with N; [lra|exact Herr]. }
  assert (Hx' := Hx). apply Rabs_le_inv in Hx'. assert (Hx0 : 966 / 1000 <= x) by lra.
  assert (Hix : / x <= 1036 / 1000). { apply Rmult_le_reg_l with x; [lra|]. rewrite Rinv_r by lra. lra. }
  assert (Hix0 : 0 < / x) by (apply Rinv_0_lt_compat; lra).
  assert (Hlp : 0 < B2R l) by (rewrite Ex; nra).
  assert (He5 : (6 <= p)%Z).
  { apply Z.nlt_ge. intros C. assert (bpow radix2 (-5) <= u) by (apply bpow_le; lia). change (bpow radix2 (-5)) with (/ 32) in H. lra. }
  pose proof (@emax_pos p e Hp He) as Hpe.
  assert (Heta : eta <= u / 32).
  { unfold ProofFloatErr.eta, uround. apply Rle_trans with (bpow radix2 (- p - 5)); [apply bpow_le; lia|].
    unfold Zminus. rewrite bpow_plus. change (bpow radix2 (- (5))) with (/ 32). lra. }
  assert (Hdv : vreal v <> rzero). { intros E. unfold N in HN. rewrite E, rnorm_rzero in HN. lra. }
  assert (Hcomp : forall i, (i < n)%nat -> Rabs (fval i v) <= N).
  { intros i Hi. pose proof (rdot_ge n (vreal v) i Hi) as G. rewrite vnth_real, <- Rabs_mult_self, <- rnorm_sq in G. fold N in G.
    pose proof (Rabs_pos (fval i v)). apply Rnot_lt_le. intros C. nra. }
  assert (Hq : forall i, (i < n)%nat -> Rabs (fval i v / B2R l) <= 1036 / 1000).
  { intros i Hi. unfold Rdiv. rewrite Rabs_mult, (Rabs_pos_eq (/ B2R l)) by (left; apply Rinv_0_lt_compat; lra).
    apply Rle_trans with (N * / B2R l); [apply Rmult_le_compat_r; [left; apply Rinv_0_lt_compat; lra|auto]|].
    rewrite Ex. replace (N * / (x * N)) with (/ x) by (field; split; lra). exact Hix. }
  assert (Hdiv : forall i, (i < n)%nat -> fin (fdiv (vnth (B754_zero false) i v) l) /\ B2R (fdiv (vnth (B754_zero false) i v) l) = rnd (fval i v / B2R l)).
  { intros i Hi. apply div_ok; [apply Hf; exact Hi|lra|]. fold (fval i v). pose proof (rnd_near (p := p) (e := e) (fval i v / B2R l)) as G.
    specialize (Hq i Hi). apply Rabs_le_inv in G.
    assert (Gq : u * Rabs (fval i v / B2R l) <= 1 / 32 * (1036 / 1000)) by (apply Rmult_le_compat; try lra; apply Rabs_pos).
    apply Rabs_le_inv in Hq. apply Rle_lt_trans with 2; [apply Rabs_le; lra|]. change 2 with (bpow radix2 1). apply bpow_lt. lia. }
  assert (Hnth : forall i, (i < n)%nat -> vnth (B754_zero false) i (@normalize S n v) = fdiv (vnth (B754_zero false) i v) l).
  { intros i Hi. unfold normalize, vdivs. apply (vnth_map (fun a : bf => fdiv a l)). exact Hi. }
  split.
  { intros i Hi. rewrite Hnth by exact Hi. apply Hdiv. exact Hi. }
  apply Rle_trans with (rdist (vreal (@normalize S n v)) (rscale (/ B2R l) (vreal v)) + rdist (rscale (/ B2R l) (vreal v)) (rdirection (vreal v))).
  { apply rdist_triangle. }
  assert (A : rdist (vreal (@normalize S n v)) (rscale (/ B2R l) (vreal v)) <= u * rnorm (rscale (/ B2R l) (vreal v)) + INR n * eta).
  { unfold rdist. apply rnorm_errors; [lra|lra|]. intros i Hi. unfold rsub.
    rewrite (vnth_vmap2 0 0) by exact Hi. rewrite vnth_real. unfold rscale. rewrite (vnth_map _ 0) by exact Hi. rewrite vnth_real.
    unfold fval at 1. rewrite (Hnth i Hi). destruct (Hdiv i Hi) as [_ ->]. replace (/ B2R l * fval i v) with (fval i v / B2R l) by (unfold Rdiv; ring).
    apply rnd_near. }
  assert (Enorm : rnorm (rscale (/ B2R l) (vreal v)) = / x).
  { rewrite rnorm_scale, Rabs_pos_eq by (left; apply Rinv_0_lt_compat; lra). fold N. rewrite Ex. field. split; lra. }
  assert (B : rdist (rscale (/ B2R l) (vreal v)) (rdirection (vreal v)) = Rabs (/ x - 1)).
  { unfold rdist, rdirection. fold N.
    assert (E : rsub (rscale (/ B2R l) (vreal v)) (rscale (/ N) (vreal v)) = rscale (/ B2R l - / N) (vreal v)).
    { apply rscale_minus. }
    rewrite E, rnorm_scale. fold N. rewrite <- (Rabs_pos_eq N) at 2 by lra. rewrite <- Rabs_mult. f_equal. rewrite Ex. field. split; lra. }
  assert (C : Rabs (/ x - 1) <= 1036 / 1000 * (55 / 100 * w + 102 / 100 * u)).
  { replace (/ x - 1) with (/ x * (1 - x)) by (field; lra). rewrite Rabs_mult, (Rabs_pos_eq (/ x)) by lra. rewrite <- Rabs_Ropp.
    replace (- (1 - x)) with (x - 1) by ring. apply Rmult_le_compat; [lra|apply Rabs_pos|exact Hix|exact Hx]. }
  rewrite Enorm in A. rewrite B. assert (D1 : u * / x <= u * (1036 / 1000)) by (apply Rmult_le_compat_l; lra).
  assert (D2 : INR n * eta <= INR n * (u / 32)) by (apply Rmult_le_compat_l; lra).
  unfold w in C. assert (0 <= INR n * u) by nra. lra.
Qed.

Lemma norm_near n (a b : vec R n) : rnorm b = 1 -> Rabs (rnorm a - 1) <= rdist a b.
Proof.
  intros Hb. pose proof (rdist_triangle a b rzero) as H1. pose proof (rdist_triangle b a rzero) as H2.
  assert (Z : forall c : vec R n, rdist c rzero = rnorm c).
  { intros c. unfold rdist. f_equal. unfold rsub, rzero. clear. induction n as [|m IH]; [destruct c; reflexivity|]. destruct c as [y c]. cbn. f_equal; [ring|apply IH]. }
  rewrite !Z in *. rewrite (rdist_sym b a) in H2. apply Rabs_le. lra.
Qed.

(** ** Overflow and underflow *)
Lemma dot_nn n (v : vec bf n) : finite_pt v -> nn (@dot S n v v) /\ (forall i, (i < n)%nat -> lex (fmul (vnth (B754_zero false) i v) (vnth (B754_zero false) i v)) (@dot S n v v)).
Proof.
  induction n as [|n IH]; intros Hf.
  - split; [right; repeat split; cbn; lra|intros i Hi; lia].
  - destruct v as [x v]. assert (Hx : fin x) by (apply (Hf 0%nat); lia).
    destruct (IH v (fun i Hi => Hf (Datatypes.S i) ltac:(lia))) as [I1 I2].
    assert (Hs : nn (fmul x x)).
    { destruct (square_spec x Hx) as [(-> & _)|(M1 & M2 & M3)]; [left; reflexivity|right]. split; [exact M1|]. split; [|exact M3].
      rewrite M2. apply rnd_nonneg. nra. }
    change (@dot S (Datatypes.S n) (x, v) (x, v)) with (fadd (fmul x x) (@dot S n v v)).
    destruct (add_spec _ _ Hs I1) as (A1 & A2 & A3). split; [exact A1|]. intros i Hi. destruct i as [|i]; [exact A2|].
    apply lex_trans with (@dot S n v v); [apply (I2 i); lia|exact A3].
Qed.

Lemma normalize_overflow n (v : vec bf n) i : finite_pt v -> (i < n)%nat -> bpow radix2 e <= rnd (fval i v * fval i v) ->
  @vlength S n v = pinf /\ finite_pt (@normalize S n v) /\ vreal (@normalize S n v) = rzero.
Proof.
  intros Hf Hi Ho. destruct (dot_nn n v Hf) as [H1 H2]. specialize (H2 i Hi).
  assert (E : @dot S n v v = pinf).
  { destruct H2 as [H2|(C & _)]; [exact H2|]. exfalso. destruct (square_spec _ (Hf i Hi)) as [(Q & _)|(M1 & M2 & _)].
    - rewrite Q in C. discriminate.
    - pose proof (fin_lt (fmul (vnth (B754_zero false) i v) (vnth (B754_zero false) i v))) as G. rewrite M2 in G. fold (fval i v) in G.
      rewrite Rabs_pos_eq in G; [lra|]. apply rnd_nonneg. nra. }
  assert (El : @vlength S n v = pinf). { change (@vlength S n v) with (fsqrt (@dot S n v v)). rewrite E. reflexivity. }
  split; [exact El|]. assert (Hnth : forall j, (j < n)%nat -> vnth (B754_zero false) j (@normalize S n v) = fdiv (vnth (B754_zero false) j v) pinf).
  { intros j Hj. unfold normalize, vdivs. rewrite El. apply (vnth_map (fun a : bf => fdiv a pinf)). exact Hj. }
  assert (Hz : forall x : bf, fin x -> fin (fdiv x pinf) /\ B2R (fdiv x pinf) = 0).
  { intros x Hx. destruct x; try discriminate; split; reflexivity. }
  split.
  - intros j Hj. rewrite (Hnth j Hj). apply Hz. apply Hf. exact Hj.
  - apply (vec_ext_nth 0). intros j Hj. rewrite vnth_real. unfold fval. rewrite (Hnth j Hj). unfold rzero. rewrite (vnth_vconst 0) by exact Hj.
    apply Hz. apply Hf. exact Hj.
Qed.

Lemma normalize_underflow n (v : vec bf n) : finite_pt v -> (forall i, (i < n)%nat -> rnd (fval i v * fval i v) = 0) ->
  B2R (@vlength S n v) = 0 /\ fin (@vlength S n v) /\ forall i, (i < n)%nat -> is_finite (vnth (B754_zero false) i (@normalize S n v)) = false.
Proof.
  intros Hf Hz.
  assert (E : exists s, @dot S n v v = B754_zero s).
  { clear -Hf Hz. induction n as [|n IH]; [exists false; reflexivity|]. destruct v as [x v].
    assert (Hx : fin x) by (apply (Hf 0%nat); lia).
    destruct (IH v (fun i Hi => Hf (Datatypes.S i) ltac:(lia)) (fun i Hi => Hz (Datatypes.S i) ltac:(lia))) as (s & E).
    change (@dot S (Datatypes.S n) (x, v) (x, v)) with (fadd (fmul x x) (@dot S n v v)). rewrite E.
    specialize (Hz 0%nat ltac:(lia)). unfold fval in Hz. cbn in Hz.
    destruct (square_spec x Hx) as [(_ & Q)|(M1 & M2 & _)]; [pose proof (bpow_gt_0 radix2 e); lra|]. rewrite Hz in M2.
    assert (Ez : exists b, fmul x x = B754_zero b).
    { destruct (fmul x x) as [b| | |b m ex Hb]; try discriminate; [eauto|]. exfalso. cbn in M2. apply eq_0_F2R in M2. destruct b; discriminate. }
    destruct Ez as (b & ->). destruct b, s; cbn; eauto. }
  destruct E as (s & E). assert (El : @vlength S n v = B754_zero s). { change (@vlength S n v) with (fsqrt (@dot S n v v)). rewrite E. reflexivity. }
  rewrite El. split; [reflexivity|]. split; [reflexivity|]. intros i Hi. unfold normalize, vdivs. rewrite El.
  replace (vnth _ i _) with (fdiv (vnth (B754_zero false) i v) (B754_zero s)) by (symmetry; apply (vnth_map (fun a : bf => fdiv a (B754_zero s))); exact Hi).
  destruct (vnth (B754_zero false) i v); reflexivity.
Qed.
End Norm.

(** ** Differences *)
Lemma direction_perturb n (a b : vec R n) : 0 < rnorm a -> 0 < rnorm b -> rdist (rdirection a) (rdirection b) <= 2 * (rdist a b / rnorm b).
Proof.
  intros Ha Hb. unfold rdirection. apply Rle_trans with (rdist (rscale (/ rnorm a) a) (rscale (/ rnorm b) a) + rdist (rscale (/ rnorm b) a) (rscale (/ rnorm b) b)).
  { apply rdist_triangle. }
  assert (E1 : rdist (rscale (/ rnorm a) a) (rscale (/ rnorm b) a) = Rabs (rnorm b - rnorm a) / rnorm b).
  { unfold rdist. rewrite rscale_minus, rnorm_scale. rewrite <- (Rabs_pos_eq (rnorm a)) at 2 by lra. rewrite <- Rabs_mult.
    unfold Rdiv. rewrite <- (Rabs_pos_eq (/ rnorm b)) at 2 by (left; apply Rinv_0_lt_compat; lra). rewrite <- Rabs_mult. f_equal. field. lra. }
  assert (E2 : rdist (rscale (/ rnorm b) a) (rscale (/ rnorm b) b) = rdist a b / rnorm b).
  { unfold rdist. assert (E : forall m t (x y : vec R m), rsub (rscale t x) (rscale t y) = rscale t (rsub x y)).
    { intros m t. unfold rsub, rscale. induction m as [|m IH]; intros x y; [reflexivity|]. destruct x, y. cbn. f_equal; [ring|apply IH]. }
    rewrite E, rnorm_scale, Rabs_pos_eq by (left; apply Rinv_0_lt_compat; lra). unfold Rdiv. ring. }
  rewrite E1, E2. enough (Rabs (rnorm b - rnorm a) / rnorm b <= rdist a b / rnorm b) by lra.
  apply Rmult_le_compat_r; [left; apply Rinv_0_lt_compat; lra|].
  pose proof (rdist_triangle a b rzero) as H1. pose proof (rdist_triangle b a rzero) as H2.
  assert (Z : forall c : vec R n, rdist c rzero = rnorm c).
  { intros c. unfold rdist. f_equal. unfold rsub, rzero. clear. induction n as [|m IH]; [destruct c; reflexivity|]. destruct c as [y c]. cbn. f_equal; [ring|apply IH]. }
  rewrite !Z in *. rewrite (rdist_sym b a) in H2. apply Rabs_le. lra.
Qed.

Section Diff.
Context {p e : Z} {Hp : Prec_gt_0 p} {He : Prec_lt_emax p e}.
Notation bf := (binary_float p e).
Notation u := (uround p).
Context (fc fs fa : bf -> bf) (fpi : bf).
Let S := IEEE p e Hp He fc fs fa fpi.

Lemma sub_err n (a b : vec bf n) : finite_pt a -> finite_pt b -> finite_pt (@vsub S n a b) ->
  rdist (vreal (@vsub S n a b)) (rsub (vreal a) (vreal b)) <= u * rdist (vreal a) (vreal b).
Proof.
  intros Fa Fb Fs. unfold rdist at 1. rewrite <- (Rplus_0_r (u * _)). rewrite <- (Rmult_0_r (INR n)). unfold rdist.
  apply rnorm_errors; [left; apply bpow_gt_0|lra|]. intros i Hi. rewrite Rplus_0_r.
  unfold rsub. rewrite (vnth_vmap2 0 0), !(vnth_vmap2 0 0 0), !vnth_real by exact Hi.
  specialize (Fa i Hi). specialize (Fb i Hi). specialize (Fs i Hi). unfold fval at 1 4.
  assert (E : vnth (B754_zero false) i (@vsub S n a b) = @Bminus p e Hp He mode_NE (vnth (B754_zero false) i a) (vnth (B754_zero false) i b)).
  { unfold vsub. apply (vnth_vmap2 (B754_zero false) (B754_zero false) (B754_zero false)). exact Hi. }
  rewrite E in *. destruct (sub_spec _ _ Fa Fb) as [(_ & -> & _)|((s & C) & _)]; [|rewrite C in Fs; discriminate].
  fold (fval i a) (fval i b). unfold Rminus at 1 2 4. apply rnd_sum; [apply B2R_fmt|].
  replace (- fval i b) with (B2R (Bopp (vnth (B754_zero false) i b))) by apply B2R_Bopp. apply B2R_fmt.
Qed.
End Diff.
