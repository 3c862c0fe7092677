(** * Rounding errors of sums of squares, lengths and normalised vectors *)

From Coq Require Import Bool Lia ZArith Reals Lra Psatz.
From Flocq Require Import Core BinarySingleNaN Relative Plus_error.
From Verif Require Import Scalar Linal SpecReal VecR SpecIEEE SpecFloatErr ProofRound ProofIEEE.
Local Open Scope R_scope.

(** ** Real arithmetic *)
Lemma pow_1_plus u k : 0 <= u -> INR k * u < 1 -> (1 + u) ^ k <= / (1 - INR k * u).
Proof.
  intros Hu. induction k as [|k IH]; intros Hk.
  - cbn. rewrite Rmult_0_l, Rminus_0_r, Rinv_1. lra.
  - rewrite S_INR in *. assert (K : INR k * u < 1) by nra. specialize (IH K).
    cbn [pow]. apply Rle_trans with ((1 + u) * / (1 - INR k * u)); [apply Rmult_le_compat_l; lra|].
    apply Rmult_le_reg_r with (1 - INR k * u); [lra|]. rewrite Rmult_assoc, Rinv_l, Rmult_1_r by lra.
    apply Rmult_le_reg_r with (1 - (INR k + 1) * u); [lra|].
    replace (/ (1 - (INR k + 1) * u) * (1 - INR k * u) * (1 - (INR k + 1) * u)) with (1 - INR k * u) by (field; lra).
    pose proof (pos_INR k). nra.
Qed.
Lemma pow_1_plus_32 u k : 0 <= u -> INR k * u <= 1 / 32 -> (1 + u) ^ k - 1 <= 32 / 31 * (INR k * u).
Proof.
  intros Hu Hk. pose proof (pow_1_plus u k Hu ltac:(lra)) as H. pose proof (pos_INR k). assert (0 <= INR k * u) by nra.
  assert (K : / (1 - INR k * u) - 1 <= 32 / 31 * (INR k * u)); [|lra].
  replace (/ (1 - INR k * u) - 1) with (INR k * u * / (1 - INR k * u)) by (field; lra).
  assert (K : / (1 - INR k * u) <= 32 / 31); [|nra].
  replace (32 / 31) with (/ (31 / 32)) by field. apply Rinv_le_contravar; lra.
Qed.

Lemma sqrt_near t : Rabs t <= 1 / 20 -> Rabs (sqrt (1 + t) - 1) <= 52 / 100 * Rabs t.
Proof.
  intros Ht. assert (B := Ht). apply Rabs_le_inv in B.
  set (s := sqrt (1 + t)). assert (Hs : s * s = 1 + t) by (apply sqrt_def; lra). assert (H0 : 0 <= s) by apply sqrt_pos.
  assert (Hl : 97 / 100 <= s) by (apply Rnot_lt_le; intros K; nra).
  assert (E : t = (s - 1) * (s + 1)) by lra. rewrite E, Rabs_mult, (Rabs_pos_eq (s + 1)) by lra.
  pose proof (Rabs_pos (s - 1)). nra.
Qed.

(** componentwise errors of a vector *)
Lemma rdot_errors n (a b : vec R n) (u h B : R) : 0 <= u -> 0 <= h -> 0 <= B ->
  (forall i, (i < n)%nat -> Rabs (vnth 0 i a) <= u * Rabs (vnth 0 i b) + h /\ Rabs (vnth 0 i b) <= B) ->
  rdot a a <= u * u * rdot b b + 2 * u * h * (INR n * B) + INR n * (h * h).
Proof.
  intros Hu Hh HB. revert a b. induction n as [|n IH]; intros a b H; [cbn; lra|].
  destruct a as [x a], b as [y b]. rewrite S_INR. cbn [rdot fst snd].
  specialize (IH a b (fun i Hi => H (S i) ltac:(lia))).
  destruct (H 0%nat ltac:(lia)) as [H1 H2]. cbn in H1, H2.
  assert (K : x * x <= (u * Rabs y + h) * (u * Rabs y + h)).
  { rewrite <- (Rabs_mult_self x). pose proof (Rabs_pos x). nra. }
  pose proof (Rabs_mult_self y). pose proof (Rabs_pos y).
  assert (2 * u * h * Rabs y <= 2 * u * h * B) by (apply Rmult_le_compat_l; [nra|exact H2]). nra.
Qed.

Lemma rnorm_errors n (a b : vec R n) (u h : R) : 0 <= u -> 0 <= h ->
  (forall i, (i < n)%nat -> Rabs (vnth 0 i a) <= u * Rabs (vnth 0 i b) + h) ->
  rnorm a <= u * rnorm b + INR n * h.
Proof.
  intros Hu Hh H. pose proof (rnorm_nonneg b) as Hb. pose proof (pos_INR n) as Hn.
  assert (Hc : forall i, (i < n)%nat -> Rabs (vnth 0 i b) <= rnorm b).
  { intros i Hi. unfold rnorm. rewrite <- sqrt_Rsqr_abs. apply sqrt_le_1_alt. unfold Rsqr.
    clear a H Hn Hb. revert i Hi. induction n as [|n IH]; intros i Hi; [lia|]. destruct b as [y b]. cbn [rdot fst snd].
    pose proof (rdot_self_nonneg b). destruct i as [|i]; cbn; [nra|]. specialize (IH b i ltac:(lia)). nra. }
  pose proof (rdot_errors n a b u h (rnorm b) Hu Hh Hb (fun i Hi => conj (H i Hi) (Hc i Hi))) as K.
  rewrite <- (rnorm_sq b) in K. assert (Hr : 0 <= u * rnorm b + INR n * h) by nra.
  unfold rnorm at 1. rewrite <- (sqrt_square _ Hr). apply sqrt_le_1_alt.
  eapply Rle_trans; [exact K|]. destruct n as [|n]; [cbn; nra|].
  assert (1 <= INR (S n)) by (rewrite S_INR; pose proof (pos_INR n); lra).
  assert (INR (S n) * (h * h) <= INR (S n) * INR (S n) * (h * h)) by nra. nra.
Qed.

Section Err.
Context {p e : Z} {Hp : Prec_gt_0 p} {He : Prec_lt_emax p e}.
Notation bf := (binary_float p e).
Notation rnd := (rndf p e).
Notation fmt := (fmtf p e).
Notation fsub := (@Bminus p e Hp He mode_NE).
Notation fadd := (@Bplus p e Hp He mode_NE).
Notation fmul := (@Bmult p e Hp He mode_NE).
Notation fdiv := (@Bdiv p e Hp He mode_NE).
Notation fsqrt := (@Bsqrt p e Hp He mode_NE).
Notation u := (uround p).
Definition eta : R := bpow radix2 (2 - e - p).

Lemma u_pos : 0 < u.
Proof. apply bpow_gt_0. Qed.
Lemma eta_pos : 0 < eta.
Proof. apply bpow_gt_0. Qed.
Lemma half_pow k : / 2 * bpow radix2 k = bpow radix2 (k - 1).
Proof. change (/ 2) with (bpow radix2 (-1)). rewrite <- bpow_plus. f_equal. lia. Qed.

Lemma rnd_err x : exists eps h, Rabs eps <= u /\ Rabs h <= eta /\ rnd x = x * (1 + eps) + h.
Proof.
  destruct (error_N_FLT radix2 (3 - e - p) p Hp (fun t => negb (Z.even t)) x) as (eps & h & H1 & H2 & _ & H3).
  exists eps, h. rewrite half_pow in H1, H2. replace (- p + 1 - 1)%Z with (- p)%Z in H1 by lia.
  replace (3 - e - p - 1)%Z with (2 - e - p)%Z in H2 by lia. auto.
Qed.
Lemma rnd_near x : Rabs (rnd x - x) <= u * Rabs x + eta.
Proof.
  destruct (rnd_err x) as (eps & h & H1 & H2 & ->). replace (x * (1 + eps) + h - x) with (eps * x + h) by ring.
  eapply Rle_trans; [apply Rabs_triang|]. rewrite Rabs_mult. apply Rplus_le_compat; [|exact H2].
  apply Rmult_le_compat_r; [apply Rabs_pos|exact H1].
Qed.
Lemma rnd_normal x : bpow radix2 (2 - e) <= Rabs x -> Rabs (rnd x - x) <= u * Rabs x.
Proof.
  intros H. pose proof (relative_error_N_FLT radix2 (3 - e - p) p Hp (fun t => negb (Z.even t)) x) as K.
  replace (3 - e - p + p - 1)%Z with (2 - e)%Z in K by lia. specialize (K H).
  rewrite half_pow in K. replace (- p + 1 - 1)%Z with (- p)%Z in K by lia. exact K.
Qed.
Lemma rnd_sum x y : fmt x -> fmt y -> Rabs (rnd (x + y) - (x + y)) <= u * Rabs (x + y).
Proof.
  intros Hx Hy. destruct (FLT_plus_error_N_ex radix2 (3 - e - p) p (fun t => negb (Z.even t)) x y Hx Hy) as (eps & H1 & H2).
  unfold rndf, fexpf. rewrite H2. replace ((x + y) * (1 + eps) - (x + y)) with (eps * (x + y)) by ring. rewrite Rabs_mult.
  apply Rmult_le_compat_r; [apply Rabs_pos|]. eapply Rle_trans; [exact H1|].
  assert (E : u_ro radix2 p = u) by (unfold u_ro, uround; rewrite half_pow; f_equal; lia).
  rewrite E. pose proof u_pos. unfold Rdiv. apply Rmult_le_reg_r with (1 + u); [lra|].
  rewrite Rmult_assoc, Rinv_l by lra. nra.
Qed.

(** ** The sum of the squares *)
Context (fc fs fa : bf -> bf) (fpi : bf).
Let S := IEEE p e Hp He fc fs fa fpi.

Lemma vnth_real n (v : vec bf n) i : vnth 0 i (vreal v) = fval i v.
Proof.
  unfold fval, vreal. revert i. induction n as [|n IH]; intros i; [destruct i; reflexivity|]. destruct v as [x v], i as [|i]; [reflexivity|].
  cbn. apply IH.
Qed.

Lemma square_sum n : forall (v : vec bf n) (B : R),
  (INR n + 1) * u <= 1 / 32 -> INR n * B <= bpow radix2 (e - 2) -> finite_pt v ->
  (forall i, (i < n)%nat -> Rabs (fval i v) * Rabs (fval i v) <= B) ->
  let d := rdot (vreal v) (vreal v) in
  fin (@dot S n v v) /\ Bsign (@dot S n v v) = false /\ 0 <= B2R (@dot S n v v) /\
  Rabs (B2R (@dot S n v v) - d) <= ((1 + u) ^ (n + 1) - 1) * d + INR n * (1 + u) ^ n * eta.
Proof.
  pose proof u_pos as Hu. pose proof eta_pos as Hh.
  induction n as [|n IH]; intros v B Hn HB Hf Hv d.
  - cbn. repeat split; try lra. rewrite Rminus_0_r, Rabs_R0. lra.
  - destruct v as [x v]. rewrite S_INR in *. pose proof (pos_INR n) as Hi.
    assert (Hx : fin x) by (apply (Hf 0%nat); lia).
    assert (HB0 : 0 <= B). { eapply Rle_trans; [|apply (Hv 0%nat); lia]. apply Rmult_le_pos; apply Rabs_pos. }
    destruct (IH v B) as (F1 & F2 & F3 & F4); [nra|nra|intros i Hi'; apply (Hf (Datatypes.S i)); lia|intros i Hi'; apply (Hv (Datatypes.S i)); lia|].
    set (D := @dot S n v v) in *. set (dm := rdot (vreal v) (vreal v)) in *.
    assert (Hdm : 0 <= dm) by apply rdot_self_nonneg.
    assert (HdB : dm <= INR n * B).
    { assert (Hv' : forall i, (i < n)%nat -> Rabs (fval i v) * Rabs (fval i v) <= B) by (intros i Hi'; apply (Hv (Datatypes.S i)); lia).
      unfold dm. clear -Hv'. revert Hv'. induction n as [|n IH]; intros H; [cbn; lra|]. destruct v as [y v]. rewrite S_INR. unfold vreal. cbn [vmap rdot fst snd].
      specialize (IH v (fun i Hi => H (Datatypes.S i) ltac:(lia))). pose proof (H 0%nat ltac:(lia)) as H0. unfold fval in H0. cbn in H0.
      rewrite Rabs_mult_self in H0. unfold vreal in IH. lra. }
    set (xx := B2R x * B2R x) in *. assert (Hxx : 0 <= xx) by (unfold xx; nra).
    assert (HxB : xx <= B). { unfold xx. rewrite <- Rabs_mult_self. apply (Hv 0%nat). lia. }
    assert (Ed : d = xx + dm) by reflexivity.
    assert (P1 : (1 + u) ^ (n + 1) - 1 <= 32 / 31 * (1 / 32)).
    { pose proof (pow_1_plus_32 u (n + 1) ltac:(lra)) as K. rewrite plus_INR in K. cbn [INR] in K. specialize (K ltac:(nra)). nra. }
    assert (P0 : 1 <= (1 + u) ^ n) by (apply pow_R1_Rle; lra).
    assert (P2 : (1 + u) ^ n <= (1 + u) ^ (n + 1)) by (apply Rle_pow; [lra|lia]).
    assert (Hnu : (INR n + 1) * u <= 1 / 32) by nra.
    assert (Hu1 : u <= 1 / 32) by nra.
    assert (Hemax := @emax_pos p e Hp He). assert (Hpe : (2 <= e)%Z) by lia.
    assert (He2 : 1 <= bpow radix2 (e - 2)) by (apply (bpow_le radix2 0); lia).
    assert (Ee : bpow radix2 e = 4 * bpow radix2 (e - 2)) by (replace e with (2 + (e - 2))%Z at 1 by lia; rewrite bpow_plus; reflexivity).
    assert (Heta : eta <= u). { apply bpow_le. lia. }
    assert (Hneta : INR n * (1 + u) ^ n * eta <= 1 / 16).
    { apply Rle_trans with (INR n * 2 * u); [|nra]. apply Rmult_le_compat; try nra. }
    assert (HD : B2R D <= 2 * bpow radix2 (e - 2) - B + 1/8).
    { apply Rabs_le_inv in F4. assert (((1 + u) ^ (n + 1) - 1) * dm <= 32 / 31 * (1 / 32) * bpow radix2 (e - 2)); [|nra].
      apply Rmult_le_compat; nra. }
    assert (Sq := rnd_near xx). rewrite (Rabs_pos_eq xx Hxx) in Sq. apply Rabs_le_inv in Sq.
    assert (Ha0 : 0 <= rnd xx) by (apply rnd_nonneg; exact Hxx).
    assert (Ha : rnd xx <= B + u * B + eta) by nra.
    assert (HBe : B <= bpow radix2 (e - 2)) by nra.
    destruct (square_spec x Hx) as [(_ & Hov)|(M1 & M2 & M3)].
    { exfalso. change (B2R x * B2R x) with xx in Hov. nra. }
    change (B2R x * B2R x) with xx in M2.
    assert (Fs : fmt (rnd xx)) by apply rnd_fmt.
    assert (Hsum := rnd_sum (rnd xx) (B2R D) Fs (B2R_fmt D)). rewrite (Rabs_pos_eq (rnd xx + B2R D)) in Hsum by lra.
    assert (Hlt : Rabs (rnd (B2R (fmul x x) + B2R D)) < bpow radix2 e).
    { rewrite M2. rewrite Rabs_pos_eq by (apply rnd_nonneg; lra). apply Rabs_le_inv in Hsum.
      assert (rnd xx + B2R D <= 5 / 2 * bpow radix2 (e - 2)) by nra. nra. }
    destruct (add_ok (fmul x x) D M1 F1 Hlt) as (A1 & A2).
    assert (Edot : @dot S (Datatypes.S n) (x, v) (x, v) = fadd (fmul x x) D) by reflexivity.
    rewrite Edot. split; [exact A1|].
    assert (Hnn : nn (fadd (fmul x x) D)).
    { apply add_spec; right; [split; [exact M1|split; [rewrite M2; exact Ha0|exact M3]]|split; [exact F1|split; [exact F3|exact F2]]]. }
    destruct Hnn as [Hinf|(_ & G1 & G2)]; [rewrite Hinf in A1; discriminate|].
    split; [exact G2|]. split; [exact G1|]. rewrite A2, M2, Ed. set (g := (1 + u) ^ (n + 1) - 1) in *.
    assert (Eg : (1 + u) ^ (Datatypes.S n + 1) - 1 = u * (1 + g) + g) by (unfold g; cbn [Nat.add pow]; ring). rewrite Eg.
    assert (Eh : (1 + u) ^ Datatypes.S n = (1 + u) * (1 + u) ^ n) by reflexivity. rewrite Eh.
    set (h := INR n * (1 + u) ^ n * eta) in *. set (qn := (1 + u) ^ n) in *.
    assert (Hg : u <= g). { unfold g. rewrite Nat.add_1_r, <- tech_pow_Rmult. fold qn. clear -P0 Hu. nra. }
    apply Rabs_le_inv in F4. apply Rabs_le_inv in Hsum. apply Rabs_le.
    assert (T1 : u * (rnd xx + B2R D) <= u * (xx + u * xx + eta + dm + g * dm + h)) by (apply Rmult_le_compat_l; lra).
    assert (Q1 : (INR n + 1) * ((1 + u) * qn) * eta >= (1 + u) * h + (1 + u) * eta).
    { unfold h. assert (eta <= qn * eta) by nra. nra. }
    assert (Q3 : u * xx <= g * xx) by (apply Rmult_le_compat_r; lra).
    assert (Q2 : u * (u * xx) <= u * (g * xx)) by (apply Rmult_le_compat_l; lra).
    clearbody g h qn D. clear -T1 Q1 Q2 Q3 F4 Hsum Sq. split; lra.
Qed.
End Err.
