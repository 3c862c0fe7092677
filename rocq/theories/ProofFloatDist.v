(** * Rounding errors of scalar products, lengths and distances *)

From Coq Require Import Bool Lia ZArith Reals Lra Psatz.
From Flocq Require Import Core BinarySingleNaN.
From Verif Require Import Scalar Linal SpecReal VecR VecLemmas SpecIEEE SpecFloatErr ProofRound ProofIEEE ProofFloatErr ProofFloatNorm.
Local Open Scope R_scope.

Definition rabsv {n} (v : vec R n) : vec R n := vmap Rabs v.

Lemma rabsv_self n (v : vec R n) : rdot (rabsv v) (rabsv v) = rdot v v.
Proof.
  unfold rabsv. induction n as [|n IH]; [reflexivity|]. destruct v as [x v]. cbn [vmap rdot fst snd]. rewrite IH, Rabs_mult_self. reflexivity.
Qed.
Lemma rabsv_norm n (v : vec R n) : rnorm (rabsv v) = rnorm v.
Proof. unfold rnorm. now rewrite rabsv_self. Qed.
Lemma absdot_nonneg n (a b : vec R n) : 0 <= rdot (rabsv a) (rabsv b).
Proof.
  unfold rabsv. induction n as [|n IH]; [cbn; lra|]. destruct a as [x a], b as [y b]. cbn [vmap rdot fst snd].
  specialize (IH a b). pose proof (Rabs_pos x). pose proof (Rabs_pos y). nra.
Qed.
Lemma absdot_ge n (a b : vec R n) : Rabs (rdot a b) <= rdot (rabsv a) (rabsv b).
Proof.
  unfold rabsv. induction n as [|n IH]; [cbn; rewrite Rabs_R0; lra|]. destruct a as [x a], b as [y b]. cbn [vmap rdot fst snd].
  eapply Rle_trans; [apply Rabs_triang|]. rewrite Rabs_mult. specialize (IH a b). lra.
Qed.
Lemma absdot_norms n (a b : vec R n) : rdot (rabsv a) (rabsv b) <= rnorm a * rnorm b.
Proof.
  rewrite <- (rabsv_norm n a), <- (rabsv_norm n b). eapply Rle_trans; [apply Rle_abs|]. apply cauchy_schwarz.
Qed.

Lemma sqrt_sum_le a b : 0 <= a -> 0 <= b -> sqrt (a + b) <= sqrt a + sqrt b.
Proof.
  intros Ha Hb. pose proof (sqrt_pos a). pose proof (sqrt_pos b). rewrite <- (sqrt_square (sqrt a + sqrt b)) by lra. apply sqrt_le_1_alt.
  pose proof (sqrt_def a Ha). pose proof (sqrt_def b Hb). nra.
Qed.

Section Dist.
Context {p e : Z} {Hp : Prec_gt_0 p} {He : Prec_lt_emax p e}.
Notation bf := (binary_float p e).
Notation rnd := (rndf p e).
Notation fmt := (fmtf p e).
Notation fadd := (@Bplus p e Hp He mode_NE).
Notation fsub := (@Bminus p e Hp He mode_NE).
Notation fmul := (@Bmult p e Hp He mode_NE).
Notation fsqrt := (@Bsqrt p e Hp He mode_NE).
Notation u := (uround p).
Notation eta := (@eta p e).
Context (fc fs fa : bf -> bf) (fpi : bf).
Let S := IEEE p e Hp He fc fs fa fpi.

Lemma dot_err n : forall (a b : vec bf n),
  (INR n + 1) * u <= 1 / 32 -> finite_pt a -> finite_pt b ->
  let d := rdot (vreal a) (vreal b) in
  let m := rdot (rabsv (vreal a)) (rabsv (vreal b)) in
  m <= bpow radix2 (e - 2) ->
  fin (@dot S n a b) /\
  Rabs (B2R (@dot S n a b) - d) <= ((1 + u) ^ (n + 1) - 1) * m + INR n * (1 + u) ^ n * eta.
Proof.
  pose proof (@u_pos p) as Hu. pose proof (@eta_pos p e) as Hh.
  induction n as [|n IH]; intros a b Hn Fa Fb d m HM.
  - cbn. split; [reflexivity|]. rewrite Rminus_0_r, Rabs_R0. lra.
  - destruct a as [x a], b as [y b]. rewrite S_INR in *. pose proof (pos_INR n) as Hi.
    assert (Hx : fin x) by (apply (Fa 0%nat); lia). assert (Hy : fin y) by (apply (Fb 0%nat); lia).
    set (xy := B2R x * B2R y) in *. pose proof (Rabs_pos xy) as Hxy0.
    assert (Em : m = Rabs xy + rdot (rabsv (vreal a)) (rabsv (vreal b))). { unfold m, xy. rewrite Rabs_mult. reflexivity. }
    pose proof (absdot_nonneg n (vreal a) (vreal b)) as Hmm.
    destruct (IH a b) as (F1 & F4); [nra|intros i Hi'; apply (Fa (Datatypes.S i)); lia|intros i Hi'; apply (Fb (Datatypes.S i)); lia|lra|].
    set (D := @dot S n a b) in *. set (dm := rdot (vreal a) (vreal b)) in *. set (mm := rdot (rabsv (vreal a)) (rabsv (vreal b))) in *.
    assert (Hdm : Rabs dm <= mm) by apply absdot_ge.
    assert (Ed : d = xy + dm) by reflexivity.
    assert (P1 : (1 + u) ^ (n + 1) - 1 <= 32 / 31 * (1 / 32)).
    { pose proof (pow_1_plus_32 u (n + 1) ltac:(lra)) as K. rewrite plus_INR in K. cbn [INR] in K. specialize (K ltac:(nra)). nra. }
    assert (P0 : 1 <= (1 + u) ^ n) by (apply pow_R1_Rle; lra).
    assert (P2 : (1 + u) ^ n <= (1 + u) ^ (n + 1)) by (apply Rle_pow; [lra|lia]).
    assert (Hu1 : u <= 1 / 32) by nra.
    assert (Hemax := @emax_pos p e Hp He). assert (Hpe : (2 <= e)%Z) by lia.
    assert (He2 : 1 <= bpow radix2 (e - 2)) by (apply (bpow_le radix2 0); lia).
    assert (Ee : bpow radix2 e = 4 * bpow radix2 (e - 2)) by (replace e with (2 + (e - 2))%Z at 1 by lia; rewrite bpow_plus; reflexivity).
    assert (Heta : eta <= u). { apply bpow_le. lia. }
    assert (Hneta : INR n * (1 + u) ^ n * eta <= 1 / 16).
    { apply Rle_trans with (INR n * 2 * u); [|nra]. apply Rmult_le_compat; nra. }
    assert (HD : Rabs (B2R D) <= mm + 1 / 31 * mm + 1 / 16).
    { assert (G : ((1 + u) ^ (n + 1) - 1) * mm <= 32 / 31 * (1 / 32) * mm) by (apply Rmult_le_compat_r; lra).
      replace (B2R D) with (dm + (B2R D - dm)) by ring. eapply Rle_trans; [apply Rabs_triang|]. lra. }
    assert (Sq := @rnd_near p e Hp xy). assert (Sq' := Sq). apply Rabs_le_inv in Sq'.
    assert (Ha : Rabs (rnd xy) <= Rabs xy + 1 / 32 * Rabs xy + 1 / 32).
    { replace (rnd xy) with (xy + (rnd xy - xy)) by ring. eapply Rle_trans; [apply Rabs_triang|].
      assert (u * Rabs xy <= 1 / 32 * Rabs xy) by (apply Rmult_le_compat_r; lra). lra. }
    assert (Hov : Rabs (rnd (B2R x * B2R y)) < bpow radix2 e) by (change (B2R x * B2R y) with xy; lra).
    destruct (mul_ok x y Hx Hy Hov) as [M1 M2]. change (B2R x * B2R y) with xy in M2.
    assert (Fs : fmt (rnd xy)) by apply rnd_fmt.
    assert (Hsum := rnd_sum (rnd xy) (B2R D) Fs (B2R_fmt D)).
    assert (Hab : Rabs (rnd xy + B2R D) <= 5 / 2 * bpow radix2 (e - 2)).
    { eapply Rle_trans; [apply Rabs_triang|]. lra. }
    assert (Hlt : Rabs (rnd (B2R (fmul x y) + B2R D)) < bpow radix2 e).
    { rewrite M2. replace (rnd (rnd xy + B2R D)) with ((rnd xy + B2R D) + (rnd (rnd xy + B2R D) - (rnd xy + B2R D))) by ring.
      eapply Rle_lt_trans; [apply Rabs_triang|]. assert (u * Rabs (rnd xy + B2R D) <= 1 / 32 * (5 / 2 * bpow radix2 (e - 2))) by (apply Rmult_le_compat; try lra; apply Rabs_pos). nra. }
    destruct (add_ok (fmul x y) D M1 F1 Hlt) as (A1 & A2).
    assert (Edot : @dot S (Datatypes.S n) (x, a) (y, b) = fadd (fmul x y) D) by reflexivity.
    rewrite Edot. split; [exact A1|]. fold mm in Em. rewrite A2, M2, Ed, Em. set (g := (1 + u) ^ (n + 1) - 1) in *.
    assert (Eg : (1 + u) ^ (Datatypes.S n + 1) - 1 = u * (1 + g) + g) by (unfold g; cbn [Nat.add pow]; ring). rewrite Eg.
    assert (Eh : (1 + u) ^ Datatypes.S n = (1 + u) * (1 + u) ^ n) by reflexivity. rewrite Eh.
    set (h := INR n * (1 + u) ^ n * eta) in *. set (qn := (1 + u) ^ n) in *.
    assert (Hg : u <= g). { unfold g. rewrite Nat.add_1_r, <- tech_pow_Rmult. fold qn. clear -P0 Hu. nra. }
    set (ax := Rabs xy) in *.
    assert (T0 : Rabs (rnd xy + B2R D) <= ax + u * ax + eta + mm + g * mm + h).
    { replace (rnd xy + B2R D) with (xy + (rnd xy - xy) + (dm + (B2R D - dm))) by ring.
      eapply Rle_trans; [apply Rabs_triang|]. eapply Rle_trans; [apply Rplus_le_compat; apply Rabs_triang|]. fold ax. lra. }
    assert (T1 : u * Rabs (rnd xy + B2R D) <= u * (ax + u * ax + eta + mm + g * mm + h)) by (apply Rmult_le_compat_l; lra).
    assert (Q1 : (INR n + 1) * ((1 + u) * qn) * eta >= (1 + u) * h + (1 + u) * eta).
    { unfold h. assert (eta <= qn * eta) by nra. nra. }
    assert (Q3 : u * ax <= g * ax) by (apply Rmult_le_compat_r; lra).
    assert (Q2 : u * (u * ax) <= u * (g * ax)) by (apply Rmult_le_compat_l; lra).
    replace (rnd (rnd xy + B2R D) - (xy + dm)) with (rnd (rnd xy + B2R D) - (rnd xy + B2R D) + ((rnd xy - xy) + (B2R D - dm))) by ring.
    eapply Rle_trans; [apply Rabs_triang|]. eapply Rle_trans; [apply Rplus_le_compat_l, Rabs_triang|].
    clearbody g h qn ax. clear -T1 Q1 Q2 Q3 F4 Hsum Sq. lra.
Qed.

(** the length, without a lower bound for the components *)
Lemma length_abs_err n (v : vec bf n) : (INR n + 1) * u <= 1 / 32 -> finite_pt v ->
  let N := rnorm (vreal v) in
  N * N <= bpow radix2 (e - 2) ->
  let l := @vlength S n v in
  fin l /\ 0 <= B2R l /\
  Rabs (B2R l - N) <= (56 / 100 * (INR n + 1) * u + 102 / 100 * u) * N + 2 * sqrt (INR n * eta).
Proof.
  intros Hn Hf N HK l. pose proof (@u_pos p) as Hu. pose proof (@eta_pos p e) as Hh. pose proof (pos_INR n) as Hin.
  set (d := rdot (vreal v) (vreal v)) in *.
  assert (HN : N * N = d) by apply rnorm_sq. assert (HN0 : 0 <= N) by apply rnorm_nonneg. assert (Hd0 : 0 <= d) by apply rdot_self_nonneg.
  destruct (dot_err n v v Hn Hf Hf) as (F1 & F4); [rewrite rabsv_self; fold d; lra|].
  rewrite rabsv_self in F4. set (D := @dot S n v v) in *. fold d in F4.
  destruct (dot_nn fc fs fa fpi n v Hf) as [Hnn _]. fold S in Hnn. change (nn D) in Hnn.
  assert (F2 : 0 <= B2R D) by (destruct Hnn as [Q|(_ & Q & _)]; [rewrite Q in F1; discriminate|exact Q]).
  set (w := (INR n + 1) * u) in *. assert (Hw : 0 <= w) by (unfold w; nra).
  assert (P1 : (1 + u) ^ (n + 1) - 1 <= 32 / 31 * w).
  { pose proof (pow_1_plus_32 u (n + 1) ltac:(lra)) as Q. rewrite plus_INR in Q. cbn [INR] in Q. apply Q. exact Hn. }
  assert (P2 : (1 + u) ^ n <= 32 / 31).
  { assert ((1 + u) ^ n <= (1 + u) ^ (n + 1)) by (apply Rle_pow; [lra|lia]). lra. }
  set (t := 32 / 31 * w) in *. set (y := 32 / 31 * (INR n * eta)).
  assert (Hy : 0 <= y) by (unfold y; nra).
  assert (T : Rabs (B2R D - d) <= t * d + y).
  { eapply Rle_trans; [exact F4|]. apply Rplus_le_compat; [apply Rmult_le_compat_r; lra|].
    unfold y. replace (32 / 31 * (INR n * eta)) with (INR n * (32 / 31) * eta) by ring.
    apply Rmult_le_compat_r; [lra|]. apply Rmult_le_compat_l; lra. }
  apply Rabs_le_inv in T.
  assert (Ht : t <= 1 / 20) by (unfold t; lra). assert (Ht0 : 0 <= t) by (unfold t; lra).
  pose proof (sqrt_near t ltac:(rewrite Rabs_pos_eq; lra)) as Hs1. rewrite (Rabs_pos_eq t) in Hs1 by lra.
  pose proof (sqrt_near (- t) ltac:(rewrite Rabs_Ropp, Rabs_pos_eq; lra)) as Hs2. rewrite Rabs_Ropp, (Rabs_pos_eq t) in Hs2 by lra.
  apply Rabs_le_inv in Hs1. apply Rabs_le_inv in Hs2.
  set (sD := sqrt (B2R D)). set (sy := sqrt y). assert (Hsy : 0 <= sy) by apply sqrt_pos. assert (HsD : 0 <= sD) by apply sqrt_pos.
  assert (Sd : sqrt d = N) by reflexivity.
  assert (Up : sD <= N * (1 + 52 / 100 * t) + sy).
  { apply Rle_trans with (sqrt (d * (1 + t) + y)); [apply sqrt_le_1_alt; lra|].
    eapply Rle_trans; [apply sqrt_sum_le; nra|]. rewrite sqrt_mult, Sd by lra. fold sy.
    assert (N * sqrt (1 + t) <= N * (1 + 52 / 100 * t)) by (apply Rmult_le_compat_l; lra). lra. }
  assert (Lo : N * (1 - 52 / 100 * t) - sy <= sD).
  { assert (N * sqrt (1 + - t) <= sD + sy).
    { rewrite <- Sd, <- sqrt_mult by lra. apply Rle_trans with (sqrt (B2R D + y)); [apply sqrt_le_1_alt; lra|apply sqrt_sum_le; assumption]. }
    assert (N * (1 - 52 / 100 * t) <= N * sqrt (1 + - t)) by (apply Rmult_le_compat_l; lra). lra. }
  destruct (sqrt_spec D Hnn) as [(E & _)|(_ & L1 & L2 & _)]; [rewrite E in F1; discriminate|].
  change (@vlength S n v) with (fsqrt D) in l. split; [exact L1|]. split; [unfold l; rewrite L2; apply rnd_nonneg, sqrt_pos|].
  (* a square root is never subnormal, unless zero *)
  assert (Hl : Rabs (rnd sD - sD) <= u * sD).
  { destruct (Req_dec (B2R D) 0) as [Z|NZ].
    - unfold sD. rewrite Z, sqrt_0, rnd_0, Rminus_0_r, Rabs_R0. lra.
    - rewrite <- (Rabs_pos_eq sD) at 3 by exact HsD. apply rnd_normal. rewrite Rabs_pos_eq by exact HsD.
      assert (G : bpow radix2 (3 - e - p) <= B2R D).
      { pose proof (B2R_fmt D) as FD. apply (generic_format_ge_bpow radix2 (fexpf p e) (3 - e - p)); [intros z; unfold fexpf, FLT_exp; lia|lra|exact FD]. }
      pose proof (@emax_pos p e Hp He) as Hpe.
      unfold sD. rewrite <- (sqrt_square (bpow radix2 (2 - e))) by apply bpow_ge_0. apply sqrt_le_1_alt. rewrite <- bpow_plus.
      eapply Rle_trans; [|exact G]. apply bpow_le. lia. }
  unfold l. rewrite L2. fold sD. apply Rabs_le_inv in Hl.
  assert (Sy : sy <= 102 / 100 * sqrt (INR n * eta)).
  { unfold sy, y. rewrite sqrt_mult by nra. apply Rmult_le_compat_r; [apply sqrt_pos|].
    rewrite <- (sqrt_square (102 / 100)) by lra. apply sqrt_le_1_alt. lra. }
  pose proof (sqrt_pos (INR n * eta)) as Hq.
  assert (Hu1 : u <= 1 / 32) by (unfold w in *; nra).
  assert (U1 : u * sD <= u * (N * (1 + 52 / 100 * t) + sy)) by (apply Rmult_le_compat_l; lra).
  assert (U2 : u * (N * (1 + 52 / 100 * t)) <= u * (N * (102 / 100))).
  { apply Rmult_le_compat_l; [lra|]. apply Rmult_le_compat_l; [lra|]. unfold t. lra. }
  assert (U3 : u * sy <= 1 / 32 * sy) by (apply Rmult_le_compat_r; lra).
  assert (0 <= w * N) by nra.
  replace (56 / 100 * (INR n + 1) * u) with (56 / 100 * w) by (unfold w; ring). apply Rabs_le. unfold t in *. lra.
Qed.

(** the computed difference of two points *)
Lemma sub_near n (a b : vec bf n) : (INR n + 1) * u <= 1 / 32 -> finite_pt a -> finite_pt b ->
  rdist (vreal a) (vreal b) * rdist (vreal a) (vreal b) <= bpow radix2 (e - 3) ->
  let c := @vsub S n a b : vec bf n in
  finite_pt c /\
  rdist (vreal c) (rsub (vreal a) (vreal b)) <= u * rdist (vreal a) (vreal b) /\
  Rabs (rnorm (vreal c) - rdist (vreal a) (vreal b)) <= u * rdist (vreal a) (vreal b).
Proof.
  intros Hn Fa Fb HR c. pose proof (@u_pos p) as Hu. pose proof (@eta_pos p e) as Hh. pose proof (pos_INR n) as Hin.
  pose proof (@emax_pos p e Hp He) as Hpe. set (N := rdist (vreal a) (vreal b)) in *. assert (HN0 : 0 <= N) by apply rnorm_nonneg.
  assert (Hu1 : u <= 1 / 32) by nra.
  assert (Hp5 : (5 <= p)%Z). { assert (Q : u <= bpow radix2 (-5)) by (cbn; lra). apply le_bpow in Q. lia. }
  assert (E4 : 1 <= bpow radix2 (e - 3)) by (apply (bpow_le radix2 0); lia).
  assert (E0 : bpow radix2 e = 8 * bpow radix2 (e - 3)) by (replace e with (3 + (e - 3))%Z at 1 by lia; rewrite bpow_plus; reflexivity).
  assert (Hc : forall i, (i < n)%nat -> fin (fsub (vnth (B754_zero false) i a) (vnth (B754_zero false) i b))).
  { intros i Hi. set (z := fval i a - fval i b).
    assert (Hz : z * z <= N * N).
    { pose proof (rdot_ge n (rsub (vreal a) (vreal b)) i Hi) as Q. rewrite <- rnorm_sq in Q.
      unfold rsub in Q at 1 2. rewrite !(vnth_vmap2 0 0 0), !vnth_real in Q by exact Hi. exact Q. }
    assert (Hz1 : Rabs z <= 1 + bpow radix2 (e - 3)) by (rewrite <- (Rabs_mult_self z) in Hz; pose proof (Rabs_pos z); nra).
    assert (Q : Rabs (rnd z - z) <= u * Rabs z).
    { apply rnd_sum; [apply B2R_fmt|apply generic_format_opp, B2R_fmt]. }
    assert (Hlt : Rabs (rnd z) < bpow radix2 e).
    { replace (rnd z) with (z + (rnd z - z)) by ring. eapply Rle_lt_trans; [apply Rabs_triang|]. pose proof (Rabs_pos z). nra. }
    exact (proj1 (sub_ok _ _ (Fa i Hi) (Fb i Hi) Hlt)). }
  assert (Hnth : forall i, (i < n)%nat -> vnth (B754_zero false) i c = fsub (vnth (B754_zero false) i a) (vnth (B754_zero false) i b)).
  { intros i Hi. unfold c, vsub. apply (vnth_vmap2 (B754_zero false) (B754_zero false) (B754_zero false)). exact Hi. }
  assert (Fd : finite_pt c) by (intros i Hi; rewrite (Hnth i Hi); exact (Hc i Hi)).
  pose proof (sub_err fc fs fa fpi n a b Fa Fb Fd) as Hs. fold S in Hs. fold c in Hs.
  assert (Z : forall x : vec R n, rdist x rzero = rnorm x).
  { intros x. unfold rdist. f_equal. unfold rsub, rzero. clear. induction n as [|m IH]; [destruct x; reflexivity|]. destruct x as [y x]. cbn. f_equal; [ring|apply IH]. }
  pose proof (rdist_triangle (vreal c) (rsub (vreal a) (vreal b)) rzero) as T1. pose proof (rdist_triangle (rsub (vreal a) (vreal b)) (vreal c) rzero) as T2.
  rewrite !Z in *. rewrite (rdist_sym _ (vreal c)) in T2. change (rnorm (rsub (vreal a) (vreal b))) with N in *. fold N in Hs.
  assert (T3 : Rabs (rnorm (vreal c) - N) <= u * N) by (apply Rabs_le; lra).
  split; [exact Fd|]. split; [exact Hs|exact T3].
Qed.
Lemma sub_reach n (a b : vec bf n) : (INR n + 1) * u <= 1 / 32 -> in_reach a b ->
  let c := @vsub S n a b : vec bf n in
  finite_pt c /\ rnorm (vreal c) * rnorm (vreal c) <= 34 / 32 * bpow radix2 (e - 4) * (34 / 32) /\
  rdist (vreal c) (rsub (vreal a) (vreal b)) <= u * rdist (vreal a) (vreal b) /\
  Rabs (rnorm (vreal c) - rdist (vreal a) (vreal b)) <= u * rdist (vreal a) (vreal b).
Proof.
  intros Hn (Fa & Fb & HR) c. pose proof (@u_pos p) as Hu. pose proof (pos_INR n) as Hin.
  assert (E3 : bpow radix2 (e - 4) <= bpow radix2 (e - 3)) by (apply bpow_le; lia).
  destruct (sub_near n a b Hn Fa Fb ltac:(lra)) as (H1 & H2 & H3). split; [exact H1|]. split; [|split; [exact H2|exact H3]].
  fold c in H3. set (N := rdist (vreal a) (vreal b)) in *. assert (HN0 : 0 <= N) by apply rnorm_nonneg.
  apply Rabs_le_inv in H3. pose proof (rnorm_nonneg (vreal c)). assert (Hu1 : u <= 1 / 32) by nra. assert (rnorm (vreal c) <= 33 / 32 * N) by nra.
  apply Rle_trans with ((33 / 32 * N) * (33 / 32 * N)); [apply Rmult_le_compat; assumption|]. nra.
Qed.

(** the computed distance of two points *)
Lemma distance_err n (a b : vec bf n) : (INR n + 1) * u <= 1 / 32 -> in_reach a b ->
  let N := rdist (vreal a) (vreal b) in
  let l := @vlength S n (@vsub S n a b) in
  fin l /\ 0 <= B2R l /\ Rabs (B2R l - N) <= (INR n + 3) * u * N + 2 * sqrt (INR n * eta).
Proof.
  intros Hn HR N l. pose proof (@u_pos p) as Hu. pose proof (@eta_pos p e) as Hh. pose proof (pos_INR n) as Hin.
  destruct (sub_reach n a b Hn HR) as (Fd & Hc & _ & HN).
  destruct (length_abs_err n (@vsub S n a b) Hn Fd) as (L1 & L2 & L3).
  { eapply Rle_trans; [exact Hc|]. assert (bpow radix2 (e - 2) = 4 * bpow radix2 (e - 4)) by (replace (e - 2)%Z with (2 + (e - 4))%Z by lia; rewrite bpow_plus; reflexivity).
    pose proof (bpow_gt_0 radix2 (e - 4)). lra. }
  split; [exact L1|]. split; [exact L2|]. fold N in HN. assert (HN0 : 0 <= N) by apply rnorm_nonneg.
  set (N' := rnorm (vreal (@vsub S n a b : vec bf n))) in *. apply Rabs_le_inv in HN.
  set (w := INR n * u) in *. assert (Hw : 0 <= w) by (unfold w; nra). assert (Hu1 : u <= 1 / 32) by (unfold w in *; nra).
  assert (Ec : 56 / 100 * (INR n + 1) * u + 102 / 100 * u = 56 / 100 * w + 158 / 100 * u) by (unfold w; field). rewrite Ec in L3.
  replace ((INR n + 3) * u * N) with (w * N + 3 * (u * N)) by (unfold w; ring).
  assert (HN' : N' <= N + 1 / 32 * N) by nra.
  assert (A : (56 / 100 * w + 158 / 100 * u) * N' <= (56 / 100 * w + 158 / 100 * u) * (N + 1 / 32 * N)) by (apply Rmult_le_compat_l; lra).
  assert (0 <= w * N) by nra. assert (0 <= u * N) by nra.
  apply Rabs_le_inv in L3. change (@vlength S n (@vsub S n a b)) with l in L3. apply Rabs_le. lra.
Qed.

(** the signed distance to a sphere *)
Lemma signed_err (v o : vec bf 3) (r : bf) : 4 * u <= 1 / 32 -> in_reach v o -> fin r -> 0 <= B2R r ->
  let N := rdist (vreal v) (vreal o) in
  let x := fsub (@vlength S 3 (@vsub S 3 v o)) r in
  fin x /\ Rabs (B2R x - (N - B2R r)) <= 7 * u * N + u * Rabs (N - B2R r) + 4 * sqrt eta.
Proof.
  intros Hn HR Hr Hr0 N x. pose proof (@u_pos p) as Hu. pose proof (@eta_pos p e) as Hh.
  destruct (distance_err 3 v o) as (L1 & L2 & L3); [cbn; lra|exact HR|]. fold N in L3.
  set (l := @vlength S 3 (@vsub S 3 v o)) in *. assert (HN0 : 0 <= N) by apply rnorm_nonneg.
  assert (Hov : Rabs (rnd (B2R l - B2R r)) < bpow radix2 e).
  { pose proof (fin_lt l) as B1. pose proof (fin_lt r) as B2. rewrite Rabs_pos_eq in B1, B2 by assumption.
    destruct (Rle_dec (B2R r) (B2R l)) as [C|C].
    - rewrite Rabs_pos_eq by (apply rnd_nonneg; lra). eapply Rle_lt_trans; [|exact B1]. rewrite <- (rnd_id (B2R l) (B2R_fmt l)) at 2. apply rnd_le. lra.
    - rewrite <- rnd_abs, Rabs_left by lra. eapply Rle_lt_trans; [|exact B2]. rewrite <- (rnd_id (B2R r) (B2R_fmt r)) at 2. apply rnd_le. lra. }
  destruct (sub_ok l r L1 Hr Hov) as [S1 S2]. split; [exact S1|]. unfold x. change (@vlength S 3 (@vsub S 3 v o)) with l. rewrite S2.
  assert (Hs : Rabs (rnd (B2R l - B2R r) - (B2R l - B2R r)) <= u * Rabs (B2R l - B2R r)).
  { apply rnd_sum; [apply B2R_fmt|apply generic_format_opp, B2R_fmt]. }
  assert (S3 : sqrt (INR 3 * eta) <= 18 / 10 * sqrt eta).
  { rewrite sqrt_mult by (cbn; lra). apply Rmult_le_compat_r; [apply sqrt_pos|]. rewrite <- (sqrt_square (18 / 10)) by lra. apply sqrt_le_1_alt. cbn. lra. }
  pose proof (sqrt_pos eta) as Hq.
  replace (B2R l - B2R r) with ((N - B2R r) + (B2R l - N)) in Hs at 3 by ring.
  pose proof (Rabs_triang (N - B2R r) (B2R l - N)) as T. cbn [INR] in L3.
  set (m := Rabs (N - B2R r)) in *. assert (Hm : 0 <= m) by apply Rabs_pos.
  set (z := rnd (B2R l - B2R r)) in *.
  replace (z - (N - B2R r)) with (z - (B2R l - B2R r) + (B2R l - N)) by ring. eapply Rle_trans; [apply Rabs_triang|].
  assert (E1 : Rabs (B2R l - N) <= 6 * u * N + 36 / 10 * sqrt eta) by (cbn [INR] in S3; lra).
  assert (E2 : u * Rabs ((N - B2R r) + (B2R l - N)) <= u * (m + (6 * u * N + 36 / 10 * sqrt eta))) by (apply Rmult_le_compat_l; lra).
  assert (P : 0 <= u * N) by (apply Rmult_le_pos; lra).
  assert (E3 : u * (u * N) <= 1 / 128 * (u * N)) by (apply Rmult_le_compat_r; lra).
  assert (E4 : u * sqrt eta <= 1 / 128 * sqrt eta) by (apply Rmult_le_compat_r; lra). lra.
Qed.

(** the scalar product of a computed difference with a vector of small components *)
Lemma plane_err (o v nrm : vec bf 3) : 4 * u <= 1 / 32 -> in_reach o v -> finite_pt nrm -> rnorm (vreal nrm) <= 2 ->
  let x := @dot S 3 (@vsub S 3 o v) nrm in
  fin x /\ Rabs (B2R x - rdot (rsub (vreal o) (vreal v)) (vreal nrm)) <= 6 * u * (rdist (vreal o) (vreal v) * rnorm (vreal nrm)) + 4 * eta.
Proof.
  intros Hn HR Fn Hnb x. pose proof (@u_pos p) as Hu. pose proof (@eta_pos p e) as Hh. pose proof (@emax_pos p e Hp He) as Hpe.
  destruct (sub_reach 3 o v ltac:(cbn; lra) HR) as (Fd & Hc & Hs & HN).
  set (c := @vsub S 3 o v : vec bf 3) in *. set (a := rsub (vreal o) (vreal v)) in *. set (N := rdist (vreal o) (vreal v)) in *.
  set (b := vreal nrm) in *.
  assert (Hp7 : (7 <= p)%Z). { assert (u <= bpow radix2 (-7)) by (cbn; lra). apply le_bpow in H. lia. }
  set (m := rdot (rabsv (vreal c)) (rabsv b)) in *.
  assert (Hm : m <= rnorm (vreal c) * rnorm b) by apply absdot_norms. assert (Hm0 : 0 <= m) by apply absdot_nonneg.
  assert (HB : m <= bpow radix2 (e - 2)).
  { eapply Rle_trans; [exact Hm|]. pose proof (rnorm_nonneg (vreal c)). fold b in Hnb. assert (E3 : 1 <= bpow radix2 (e - 3)) by (apply (bpow_le radix2 0); lia).
    assert (E2 : bpow radix2 (e - 2) = 2 * bpow radix2 (e - 3)) by (replace (e - 2)%Z with (1 + (e - 3))%Z by lia; rewrite bpow_plus; reflexivity).
    assert (E1 : bpow radix2 (e - 3) = 2 * bpow radix2 (e - 4)) by (replace (e - 3)%Z with (1 + (e - 4))%Z by lia; rewrite bpow_plus; reflexivity).
    apply Rle_trans with (rnorm (vreal c) * 2); [apply Rmult_le_compat_l; assumption|]. nra. }
  destruct (dot_err 3 c nrm) as (D1 & D2); try assumption; [cbn; lra|].
  fold b in D2. change (@dot S 3 c nrm) with x in D1, D2. split; [exact D1|].
  set (d := rdot (vreal c) b) in *. fold m in D2.
  assert (Hb0 : 0 <= rnorm b) by apply rnorm_nonneg. assert (HN0 : 0 <= N) by apply rnorm_nonneg.
  apply Rabs_le_inv in HN. set (q := N * rnorm b). assert (Hq : 0 <= q) by (unfold q; nra).
  assert (Hm' : m <= 129 / 128 * q).
  { eapply Rle_trans; [exact Hm|]. unfold q. replace (129 / 128 * (N * rnorm b)) with (129 / 128 * N * rnorm b) by ring. apply Rmult_le_compat_r; nra. }
  assert (Hd : Rabs (d - rdot a b) <= u * q).
  { replace (d - rdot a b) with (rdot (rsub (vreal c) a) b).
    - eapply Rle_trans; [apply cauchy_schwarz|]. unfold q. rewrite <- Rmult_assoc. apply Rmult_le_compat_r; [exact Hb0|exact Hs].
    - unfold d. clear. destruct (vreal c) as [x1 [x2 [x3 []]]], a as [y1 [y2 [y3 []]]], b as [z1 [z2 [z3 []]]]. cbn. ring. }
  assert (G : (1 + u) ^ (3 + 1) - 1 <= 45 / 10 * u).
  { pose proof (pow_1_plus_32 u 4 ltac:(lra) ltac:(cbn; lra)) as W. cbn [INR] in W. change (3 + 1)%nat with 4%nat. lra. }
  assert (G' : INR 3 * (1 + u) ^ 3 * eta <= 4 * eta).
  { apply Rmult_le_compat_r; [lra|]. pose proof (pow_1_plus_32 u 3 ltac:(lra) ltac:(cbn; lra)) as W. cbn [INR] in W |- *. lra. }
  replace (B2R x - rdot a b) with ((B2R x - d) + (d - rdot a b)) by ring. eapply Rle_trans; [apply Rabs_triang|].
  assert (T : ((1 + u) ^ (3 + 1) - 1) * m <= 45 / 10 * u * (129 / 128 * q)).
  { apply Rmult_le_compat; try lra. assert (1 <= (1 + u) ^ (3 + 1)) by (apply pow_R1_Rle; lra). lra. }
  replace (6 * u * (N * rnorm b)) with (6 * (u * q)) by (unfold q; ring). assert (0 <= u * q) by nra. lra.
Qed.
End Dist.
