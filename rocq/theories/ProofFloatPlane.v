(** * Computed line parameters in floating point, from finite results *)

From Coq Require Import List Bool Arith Lia ZArith Reals Lra Psatz.
From Flocq Require Import Core BinarySingleNaN.
From Verif Require Import Scalar Linal Result SpecReal VecR VecLemmas ModelShapes
  SpecIEEE SpecFloatErr ProofRound ProofIEEE ProofFloatErr ProofFloatNorm ProofFloatDist ProofFloatTransform.
Local Open Scope R_scope.

Section FP.
Context {p e : Z} {Hp : Prec_gt_0 p} {He : Prec_lt_emax p e}.
Notation bf := (binary_float p e).
Notation rnd := (rndf p e).
Notation fadd := (@Bplus p e Hp He mode_NE).
Notation fsub := (@Bminus p e Hp He mode_NE).
Notation fmul := (@Bmult p e Hp He mode_NE).
Notation fdiv := (@Bdiv p e Hp He mode_NE).
Notation u := (uround p).
Notation eta := (@eta p e).
Notation zero := (B754_zero false : bf).
Context (fc fs fa : bf -> bf) (fpi : bf).
Let S := IEEE p e Hp He fc fs fa fpi.

Lemma sub_fin x y : fin (fsub x y) -> fin x /\ fin y /\ B2R (fsub x y) = rnd (B2R x - B2R y).
Proof.
  intros F.
  assert (Fx : fin x /\ fin y).
  { destruct x as [sx|sx| |sx mx ex Hx], y as [sy|sy| |sy my ey Hy]; cbn in F |- *; try discriminate F; try (split; reflexivity).
    destruct (Bool.eqb sx (negb sy)); discriminate F. }
  destruct Fx as [Fx Fy]. split; [exact Fx|]. split; [exact Fy|].
  pose proof (Bminus_correct p e Hp He mode_NE x y Fx Fy) as K. cbn [round_mode] in K. rewrite rnd_change in K.
  destruct (Rlt_bool_spec (Rabs (rnd (B2R x - B2R y))) (bpow radix2 e)) as [H|H]; [exact (proj1 K)|].
  destruct K as [K _]. rewrite (ovf_not_fin _ _ _ K eq_refl) in F. discriminate F.
Qed.
Lemma div_fin x y : fin y -> fin (fdiv x y) -> fin x /\ B2R y <> 0 /\ B2R (fdiv x y) = rnd (B2R x / B2R y).
Proof.
  intros Fy F.
  assert (Fx : fin x /\ B2R y <> 0).
  { destruct y as [sy|sy| |sy my ey Hy]; try discriminate Fy.
    - destruct x as [sx|sx| |sx mx ex Hx]; cbn in F; discriminate F.
    - assert (N : B2R (B754_finite sy my ey Hy) <> 0) by (intros E; apply (eq_0_F2R radix2) in E; destruct sy; discriminate E).
      destruct x as [sx|sx| |sx mx ex Hx]; try discriminate F; split; try reflexivity; exact N. }
  destruct Fx as [Fx Ny]. split; [exact Fx|]. split; [exact Ny|].
  pose proof (Bdiv_correct p e Hp He mode_NE x y Ny) as K. cbn [round_mode] in K. rewrite rnd_change in K.
  destruct (Rlt_bool_spec (Rabs (rnd (B2R x / B2R y))) (bpow radix2 e)) as [H|H]; [exact (proj1 K)|].
  rewrite (ovf_not_fin _ _ _ K eq_refl) in F. discriminate F.
Qed.

Lemma abs_le_of_sq x y : 0 <= y -> x * x <= y * y -> Rabs x <= y.
Proof. intros Hy H. rewrite <- (Rabs_pos_eq y Hy). apply Rsqr_le_abs_0. exact H. Qed.

Lemma dot_fin n : forall (a b : vec bf n), fin (@dot S n a b) -> finite_pt a /\ finite_pt b.
Proof.
  induction n as [|n IH]; intros a b F; [split; intros i Hi; lia|].
  destruct a as [x a], b as [y b]. change (@dot S (Datatypes.S n) (x, a) (y, b)) with (fadd (fmul x y) (@dot S n a b)) in F.
  apply add_fin in F as (F1 & F2 & _). apply mul_fin in F1 as (Fx & Fy & _). destruct (IH a b F2) as (Fa & Fb).
  split; intros [|i] Hi; try assumption; [apply Fa; lia|apply Fb; lia].
Qed.
(** the error of a finite dot product *)
Lemma dot_fin_err n : forall (a b : vec bf n), fin (@dot S n a b) ->
  let d := rdot (vreal a) (vreal b) in
  let m := rdot (rabsv (vreal a)) (rabsv (vreal b)) in
  Rabs (B2R (@dot S n a b : bf) - d) <= ((1 + u) ^ (n + 1) - 1) * m + INR n * (1 + u) ^ n * eta.
Proof.
  pose proof (@u_pos p) as Hu. pose proof (@eta_pos p e) as Hh.
  induction n as [|n IH]; intros a b F d m.
  - cbn. rewrite Rminus_0_r, Rabs_R0. lra.
  - destruct a as [x a], b as [y b]. rewrite S_INR in *. pose proof (pos_INR n) as Hi.
    change (@dot S (Datatypes.S n) (x, a) (y, b)) with (fadd (fmul x y) (@dot S n a b)) in *.
    apply add_fin in F as (F1 & F2 & A2). apply mul_fin in F1 as (Fx & Fy & M2).
    set (xy := B2R x * B2R y) in *. pose proof (Rabs_pos xy) as Hxy0.
    assert (Em : m = Rabs xy + rdot (rabsv (vreal a)) (rabsv (vreal b))). { unfold m, xy. rewrite Rabs_mult. reflexivity. }
    pose proof (absdot_nonneg n (vreal a) (vreal b)) as Hmm.
    pose proof (IH a b F2) as F4. cbv zeta in F4.
    set (D := @dot S n a b : bf) in *. set (dm := rdot (vreal a) (vreal b)) in *. set (mm := rdot (rabsv (vreal a)) (rabsv (vreal b))) in *.
    assert (Hdm : Rabs dm <= mm) by apply absdot_ge.
    assert (Ed : d = xy + dm) by reflexivity.
    assert (P0 : 1 <= (1 + u) ^ n) by (apply pow_R1_Rle; lra).
    assert (Sq := @rnd_near p e Hp xy).
    assert (Hsum := rnd_sum (rnd xy) (B2R D) (rnd_fmt xy) (B2R_fmt D)).
    fold mm in Em. rewrite A2, M2, Ed, Em. set (g := (1 + u) ^ (n + 1) - 1) in *.
    assert (Eg : (1 + u) ^ (Datatypes.S n + 1) - 1 = u * (1 + g) + g) by (unfold g; cbn [Nat.add pow]; ring). rewrite Eg.
    assert (Eh : (1 + u) ^ Datatypes.S n = (1 + u) * (1 + u) ^ n) by reflexivity. rewrite Eh.
    set (h := INR n * (1 + u) ^ n * eta) in *. set (qn := (1 + u) ^ n) in *.
    assert (Hg : u <= g). { unfold g. rewrite Nat.add_1_r, <- tech_pow_Rmult. fold qn. clear -P0 Hu. nra. }
    set (ax := Rabs xy) in *.
    assert (T0 : Rabs (rnd xy + B2R D) <= ax + u * ax + eta + mm + g * mm + h).
    { replace (rnd xy + B2R D) with (xy + (rnd xy - xy) + (dm + (B2R D - dm))) by ring.
      eapply Rle_trans; [apply Rabs_triang|]. eapply Rle_trans; [apply Rplus_le_compat; apply Rabs_triang|]. fold ax. lra. }
    assert (T1 : u * Rabs (rnd xy + B2R D) <= u * (ax + u * ax + eta + mm + g * mm + h)) by (apply Rmult_le_compat_l; lra).
    assert (Q1 : (INR n + 1) * ((1 + u) * qn) * eta >= (1 + u) * h + (1 + u) * eta).
    { unfold h. assert (eta <= qn * eta) by nra. nra. }
    assert (Q3 : u * ax <= g * ax) by (apply Rmult_le_compat_r; lra).
    assert (Q2 : u * (u * ax) <= u * (g * ax)) by (apply Rmult_le_compat_l; lra).
    replace (rnd (rnd xy + B2R D) - (xy + dm)) with (rnd (rnd xy + B2R D) - (rnd xy + B2R D) + ((rnd xy - xy) + (B2R D - dm))) by ring.
    eapply Rle_trans; [apply Rabs_triang|]. eapply Rle_trans; [apply Rplus_le_compat_l, Rabs_triang|].
    clearbody g h qn ax. clear -T1 Q1 Q2 Q3 F4 Hsum Sq. lra.
Qed.
Lemma dot3_err (a b : vec bf 3) : 4 * u <= 1 / 32 -> fin (@dot S 3 a b) ->
  Rabs (B2R (@dot S 3 a b : bf) - rdot (vreal a) (vreal b)) <= 42 / 10 * u * (rnorm (vreal a) * rnorm (vreal b)) + 32 / 10 * eta.
Proof.
  intros Hn F. pose proof (@u_pos p) as Hu. pose proof (@eta_pos p e) as Hh. eapply Rle_trans; [apply (dot_fin_err 3 a b F)|].
  pose proof (absdot_nonneg 3 (vreal a) (vreal b)) as M0. pose proof (absdot_norms 3 (vreal a) (vreal b)) as M1.
  assert (P4 : (1 + u) ^ (3 + 1) - 1 <= 42 / 10 * u) by (eapply Rle_trans; [apply pow_1_plus_32; cbn; lra|]; cbn; lra).
  assert (P3 : (1 + u) ^ 3 <= 32 / 30).
  { assert (Q : (1 + u) ^ 3 - 1 <= 32 / 31 * (INR 3 * u)) by (apply pow_1_plus_32; cbn; lra). cbn [INR] in Q. lra. }
  apply Rplus_le_compat.
  - eapply Rle_trans; [apply Rmult_le_compat_r; [exact M0|exact P4]|]. apply Rmult_le_compat_l; [lra|exact M1].
  - replace (INR 3) with 3 by (cbn; ring). apply Rmult_le_compat_r; lra.
Qed.

(** the quotient of two approximations solves the linear equation *)
Lemma quotient_err (Nh Dh : bf) (N D a b : R) : fin Dh -> fin (fdiv Nh Dh) ->
  Rabs (B2R Nh - N) <= a -> Rabs (B2R Dh - D) <= b ->
  let T := B2R (fdiv Nh Dh) in
  Rabs (T * D - N) <= Rabs T * b + a + u * Rabs (B2R Nh) + eta * Rabs (B2R Dh).
Proof.
  intros FD FT HN HD T. destruct (div_fin Nh Dh FD FT) as (FN & D0 & ET). fold T in ET.
  pose proof (@rnd_near p e Hp (B2R Nh / B2R Dh)) as R. rewrite <- ET in R.
  assert (Q : Rabs (T * B2R Dh - B2R Nh) <= u * Rabs (B2R Nh) + eta * Rabs (B2R Dh)).
  { replace (T * B2R Dh - B2R Nh) with ((T - B2R Nh / B2R Dh) * B2R Dh) by (field; exact D0). rewrite Rabs_mult.
    eapply Rle_trans; [apply Rmult_le_compat_r; [apply Rabs_pos|exact R]|]. rewrite Rmult_plus_distr_r. apply Rplus_le_compat_r.
    rewrite Rmult_assoc, <- Rabs_mult. replace (B2R Nh / B2R Dh * B2R Dh) with (B2R Nh) by (field; exact D0). lra. }
  replace (T * D - N) with (- (T * (B2R Dh - D)) + (T * B2R Dh - B2R Nh) + (B2R Nh - N)) by ring.
  eapply Rle_trans; [apply Rabs_triang|]. eapply Rle_trans; [apply Rplus_le_compat_r, Rabs_triang|]. rewrite Rabs_Ropp, Rabs_mult.
  assert (Rabs T * Rabs (B2R Dh - D) <= Rabs T * b) by (apply Rmult_le_compat_l; [apply Rabs_pos|exact HD]). lra.
Qed.

(** plane through [po] with normal [nrm], line from [o] with direction [d] *)
Lemma param_err (po o nrm d : vec bf 3) : 4 * u <= 1 / 32 ->
  let Nh := @dot S 3 (@vsub S 3 po o) nrm : bf in let Dh := @dot S 3 d nrm : bf in
  fin Dh -> fin (fdiv Nh Dh) ->
  let T := B2R (fdiv Nh Dh) in
  Rabs (T * rdot (vreal d) (vreal nrm) - rdot (rsub (vreal po) (vreal o)) (vreal nrm)) <=
    u * rnorm (vreal nrm) * (5 * (Rabs T * rnorm (vreal d)) + 7 * rdist (vreal po) (vreal o)) +
    eta * (4 * Rabs T + 2 * (rnorm (vreal d) * rnorm (vreal nrm)) + 5).
Proof.
  intros Hn Nh Dh FD FT T. pose proof (@u_pos p) as Hu. pose proof (@eta_pos p e) as Hh. pose proof (@emax_pos p e Hp He) as Hpe.
  destruct (div_fin Nh Dh FD FT) as (FN & _ & _).
  assert (Eta1 : eta <= u) by (apply bpow_le; unfold Prec_gt_0 in Hp; unfold Prec_lt_emax in He; lia).
  destruct (dot_fin 3 _ _ FN) as (Fc & Fn). destruct (dot_fin 3 _ _ FD) as (Fd & _).
  assert (Fpo : finite_pt po /\ finite_pt o).
  { assert (K : forall i, (i < 3)%nat -> fin (vnth zero i po) /\ fin (vnth zero i o)).
    { intros i Hi. specialize (Fc i Hi). unfold vsub in Fc. rewrite (vnth_vmap2 zero zero zero) in Fc by exact Hi.
      apply (sub_fin (vnth zero i po) (vnth zero i o)) in Fc as (A & B & _). auto. }
    split; intros i Hi; apply K, Hi. }
  destruct Fpo as (Fpo & Fo).
  set (c := @vsub S 3 po o : vec bf 3) in *.
  pose proof (sub_err fc fs fa fpi 3 po o Fpo Fo Fc) as Hs. fold S in Hs. fold c in Hs.
  set (W := rnorm (vreal nrm)) in *. set (L := rnorm (vreal d)) in *. set (M := rdist (vreal po) (vreal o)) in *.
  assert (W0 : 0 <= W) by apply rnorm_nonneg. assert (L0 : 0 <= L) by apply rnorm_nonneg. assert (M0 : 0 <= M) by apply rnorm_nonneg.
  assert (MW0 : 0 <= M * W) by (apply Rmult_le_pos; assumption). assert (LW0 : 0 <= L * W) by (apply Rmult_le_pos; assumption).
  pose proof (dot3_err d nrm Hn FD) as ED. pose proof (dot3_err c nrm Hn FN) as EN. fold Dh in ED. fold Nh in EN. fold L W in ED. fold W in EN.
  set (D := rdot (vreal d) (vreal nrm)) in *. set (a := rsub (vreal po) (vreal o)) in *. set (N := rdot a (vreal nrm)) in *.
  assert (Hc : rnorm (vreal c) <= M + u * M).
  { replace (vreal c) with (radd a (rsub (vreal c) a)) by apply radd_rsub. eapply Rle_trans; [apply rnorm_triangle|]. apply Rplus_le_compat_l. exact Hs. }
  assert (HcW : rnorm (vreal c) * W <= (1 + u) * (M * W)).
  { apply Rle_trans with ((M + u * M) * W); [apply Rmult_le_compat_r; assumption|]. lra. }
  assert (Hdc : Rabs (rdot (vreal c) (vreal nrm) - N) <= u * (M * W)).
  { unfold N. rewrite <- rdot_sub_l. eapply Rle_trans; [apply cauchy_schwarz|]. fold W.
    apply Rle_trans with (u * M * W); [apply Rmult_le_compat_r; [exact W0|exact Hs]|lra]. }
  assert (Hu1 : u <= 1 / 128) by lra. assert (uMW : 0 <= u * (M * W)) by (apply Rmult_le_pos; lra). assert (uLW : 0 <= u * (L * W)) by (apply Rmult_le_pos; lra).
  assert (uuMW : u * (u * (M * W)) <= 1 / 128 * (u * (M * W))) by (apply Rmult_le_compat_r; lra).
  assert (EN' : Rabs (B2R Nh - N) <= 53 / 10 * (u * (M * W)) + 32 / 10 * eta).
  { replace (B2R Nh - N) with (B2R Nh - rdot (vreal c) (vreal nrm) + (rdot (vreal c) (vreal nrm) - N)) by ring. eapply Rle_trans; [apply Rabs_triang|].
    assert (K : 42 / 10 * u * (rnorm (vreal c) * W) <= 42 / 10 * u * ((1 + u) * (M * W))) by (apply Rmult_le_compat_l; [lra|exact HcW]). lra. }
  assert (HN : Rabs N <= M * W) by apply cauchy_schwarz. assert (HD : Rabs D <= L * W) by apply cauchy_schwarz.
  assert (BN : Rabs (B2R Nh) <= M * W + (53 / 10 * (u * (M * W)) + 32 / 10 * eta)).
  { replace (B2R Nh) with (N + (B2R Nh - N)) by ring. eapply Rle_trans; [apply Rabs_triang|]. lra. }
  assert (BD : Rabs (B2R Dh) <= L * W + (42 / 10 * u * (L * W) + 32 / 10 * eta)).
  { replace (B2R Dh) with (D + (B2R Dh - D)) by ring. eapply Rle_trans; [apply Rabs_triang|]. lra. }
  assert (BD' : Rabs (B2R Dh) <= 2 * (L * W) + 1).
  { assert (42 / 10 * u * (L * W) <= 1 * (L * W)) by (apply Rmult_le_compat_r; lra). lra. }
  pose proof (quotient_err Nh Dh N D _ _ FD FT EN' ED) as Q. cbv zeta in Q. fold T in Q.
  assert (Q1 : u * Rabs (B2R Nh) <= 11 / 10 * (u * (M * W)) + 1 / 10 * eta).
  { eapply Rle_trans; [apply Rmult_le_compat_l; [lra|exact BN]|].
    assert (u * eta <= 1 / 128 * eta) by (apply Rmult_le_compat_r; lra). lra. }
  assert (Q2 : eta * Rabs (B2R Dh) <= eta * (2 * (L * W) + 1)) by (apply Rmult_le_compat_l; lra).
  pose proof (Rabs_pos T) as T0.
  assert (TuLW : 0 <= Rabs T * (u * (L * W))) by (apply Rmult_le_pos; lra). assert (Te : 0 <= Rabs T * eta) by (apply Rmult_le_pos; lra).
  eapply Rle_trans; [exact Q|]. lra.
Qed.

Lemma sub_finite_near n (a b : vec bf n) : u <= 1 / 2 -> finite_pt a -> finite_pt b -> rdist (vreal a) (vreal b) <= bpow radix2 (e - 2) ->
  finite_pt (@vsub S n a b : vec bf n).
Proof.
  intros Hu1 Fa Fb HR i Hi. pose proof (@u_pos p) as Hu. set (z := fval i a - fval i b).
  assert (Hz : Rabs z <= bpow radix2 (e - 2)).
  { eapply Rle_trans; [|exact HR]. pose proof (rdot_ge n (rsub (vreal a) (vreal b)) i Hi) as Q. rewrite <- rnorm_sq in Q.
    unfold rsub in Q at 1 2. rewrite !(vnth_vmap2 0 0 0), !vnth_real in Q by exact Hi. apply abs_le_of_sq; [apply rnorm_nonneg|exact Q]. }
  assert (Q : Rabs (rnd z - z) <= u * Rabs z) by (apply rnd_sum; [apply B2R_fmt|apply generic_format_opp, B2R_fmt]).
  assert (E : bpow radix2 e = 4 * bpow radix2 (e - 2)) by (replace e with (2 + (e - 2))%Z at 1 by lia; rewrite bpow_plus; reflexivity).
  pose proof (bpow_gt_0 radix2 (e - 2)) as B0. pose proof (Rabs_pos z) as z0.
  assert (Hlt : Rabs (rnd z) < bpow radix2 e).
  { replace (rnd z) with (z + (rnd z - z)) by ring. eapply Rle_lt_trans; [apply Rabs_triang|]. assert (u * Rabs z <= 1 / 2 * Rabs z) by (apply Rmult_le_compat_r; lra). lra. }
  unfold vsub. rewrite (vnth_vmap2 zero zero zero) by exact Hi. apply (sub_ok (vnth zero i a) (vnth zero i b) (Fa i Hi) (Fb i Hi) Hlt).
Qed.

(** the point at a parameter *)
Lemma point_err n (o d : vec bf n) (t : bf) : u <= 1 / 128 ->
  let q := @vadd S n o (@vscale S n t d) : vec bf n in finite_pt q -> (0 < n)%nat ->
  finite_pt o /\ finite_pt d /\ fin t /\
  (forall i, (i < n)%nat -> Rabs (fval i q - (fval i o + B2R t * fval i d)) <= u * Rabs (fval i o) + 3 * u * Rabs (B2R t * fval i d) + 2 * eta).
Proof.
  intros Hu1 q Fq Hn0. pose proof (@u_pos p) as Hu. pose proof (@eta_pos p e) as Hh.
  assert (K : forall i, (i < n)%nat -> fin (vnth zero i o) /\ fin (vnth zero i d) /\ fin t /\
    Rabs (fval i q - (fval i o + B2R t * fval i d)) <= u * Rabs (fval i o) + 3 * u * Rabs (B2R t * fval i d) + 2 * eta).
  { intros i Hi. specialize (Fq i Hi). unfold fval.
    assert (E : vnth zero i q = fadd (vnth zero i o) (fmul t (vnth zero i d))).
    { unfold q, vadd, vscale. etransitivity; [apply (vnth_vmap2 zero zero zero); exact Hi|].
      change (fadd (vnth zero i o) (vnth zero i (vmap (fun a : bf => fmul t a) d)) = fadd (vnth zero i o) (fmul t (vnth zero i d))).
      f_equal. exact (vnth_vmap zero zero (fun a : bf => fmul t a) n i d Hi). }
    rewrite E in *. set (x := vnth zero i o) in *. set (y := vnth zero i d) in *.
    apply add_fin in Fq as (Fx & Fm & Ea). apply mul_fin in Fm as (Ft & Fy & Em).
    split; [exact Fx|]. split; [exact Fy|]. split; [exact Ft|].
    rewrite Ea, Em. pose proof (@rnd_near p e Hp (B2R t * B2R y)) as R1.
    pose proof (rnd_sum (B2R x) (rnd (B2R t * B2R y)) (B2R_fmt x) (rnd_fmt _)) as R2.
    set (z := B2R t * B2R y) in *. pose proof (Rabs_pos z) as Z0. pose proof (Rabs_pos (B2R x)) as X0.
    assert (B : Rabs (B2R x + rnd z) <= Rabs (B2R x) + Rabs z + (u * Rabs z + eta)).
    { replace (B2R x + rnd z) with (B2R x + (z + (rnd z - z))) by ring. eapply Rle_trans; [apply Rabs_triang|].
      pose proof (Rabs_triang z (rnd z - z)). lra. }
    assert (B' : u * Rabs (B2R x + rnd z) <= u * (Rabs (B2R x) + Rabs z + (u * Rabs z + eta))) by (apply Rmult_le_compat_l; lra).
    assert (uz : 0 <= u * Rabs z) by (apply Rmult_le_pos; lra).
    assert (uuz : u * (u * Rabs z) <= 1 / 128 * (u * Rabs z)) by (apply Rmult_le_compat_r; lra).
    assert (ue : u * eta <= 1 / 128 * eta) by (apply Rmult_le_compat_r; lra).
    replace (rnd (B2R x + rnd z) - (B2R x + z)) with (rnd (B2R x + rnd z) - (B2R x + rnd z) + (rnd z - z)) by ring.
    eapply Rle_trans; [apply Rabs_triang|]. lra. }
  split; [intros i Hi; apply K, Hi|]. split; [intros i Hi; apply K, Hi|]. split; [apply (K 0%nat Hn0)|]. intros i Hi; apply K, Hi.
Qed.

Lemma point_dist n (o d : vec bf n) (t : bf) : u <= 1 / 128 ->
  let q := @vadd S n o (@vscale S n t d) : vec bf n in finite_pt q -> (0 < n)%nat ->
  rdist (vreal q) (along (vreal o) (vreal d) (B2R t)) <= u * (rnorm (vreal o) + 3 * (Rabs (B2R t) * rnorm (vreal d))) + 2 * INR n * eta.
Proof.
  intros Hu1 q Fq Hn0. pose proof (@u_pos p) as Hu. pose proof (@eta_pos p e) as Hh.
  destruct (point_err n o d t Hu1 Fq Hn0) as (Fo & Fd & Ft & K). fold q in K.
  set (b := radd (rabsv (vreal o)) (rscale 3 (rabsv (rscale (B2R t) (vreal d))))).
  assert (Hb : rnorm b <= rnorm (vreal o) + 3 * (Rabs (B2R t) * rnorm (vreal d))).
  { unfold b. eapply Rle_trans; [apply rnorm_triangle|]. rewrite rnorm_scale, !rabsv_norm, rnorm_scale, (Rabs_pos_eq 3) by lra. lra. }
  eapply Rle_trans.
  - unfold rdist. apply (rnorm_errors n _ b u (2 * eta)); [lra|lra|]. intros i Hi.
    assert (Eb : Rabs (vnth 0 i b) = Rabs (fval i o) + 3 * Rabs (B2R t * fval i d)).
    { unfold b, radd, rscale, rabsv. rewrite (vnth_vmap2 0 0 0) by exact Hi. rewrite !(vnth_vmap 0 0) by exact Hi. rewrite !vnth_real.
      pose proof (Rabs_pos (fval i o)). pose proof (Rabs_pos (B2R t * fval i d)). apply Rabs_pos_eq. lra. }
    rewrite Eb. unfold rsub, along, radd, rscale. rewrite !(vnth_vmap2 0 0 0) by exact Hi. rewrite !(vnth_vmap 0 0) by exact Hi. rewrite !vnth_real.
    eapply Rle_trans; [exact (K i Hi)|]. lra.
  - assert (u * rnorm b <= u * (rnorm (vreal o) + 3 * (Rabs (B2R t) * rnorm (vreal d)))) by (apply Rmult_le_compat_l; lra). lra.
Qed.
End FP.

(** ** Planes *)
From Verif Require Import ModelIntersect SpecFloatPlane.
Section PL.
Context {p e : Z} {Hp : Prec_gt_0 p} {He : Prec_lt_emax p e}.
Notation bf := (binary_float p e).
Notation rnd := (rndf p e).
Notation fsub := (@Bminus p e Hp He mode_NE).
Notation fdiv := (@Bdiv p e Hp He mode_NE).
Notation u := (uround p).
Notation eta := (uflow p e).
Notation zero := (B754_zero false : bf).
Context (fc fs fa : bf -> bf) (fpi : bf).
Let S := IEEE p e Hp He fc fs fa fpi.
Context (Hn : 4 * u <= 1 / 32).
Context (po nrm o sd : vec bf 3) (d : vec R 3) (Hd : rdist (vreal sd) d <= u * rnorm d).
Let D := rdot d (vreal nrm).
Let W := rnorm (vreal nrm).
Let L := rnorm d.
Let M := rdist (vreal po) (vreal o).
Let Dh := @dot S 3 sd nrm : bf.
Let Nh := @dot S 3 (@vsub S 3 po o) nrm : bf.
Let T := fdiv Nh Dh.

Lemma pl_W : 0 <= W. Proof. apply rnorm_nonneg. Qed.
Lemma pl_L : 0 <= L. Proof. apply rnorm_nonneg. Qed.
Lemma pl_M : 0 <= M. Proof. apply rnorm_nonneg. Qed.
Lemma pl_u : u <= 1 / 128. Proof. pose proof Hn. lra. Qed.
Lemma pl_sd : rnorm (vreal sd) <= (1 + u) * L.
Proof.
  replace (vreal sd) with (radd d (rsub (vreal sd) d)) by apply radd_rsub. eapply Rle_trans; [apply rnorm_triangle|].
  fold L. change (rnorm (rsub (vreal sd) d)) with (rdist (vreal sd) d). pose proof Hd as K. fold L in K. lra.
Qed.
Lemma pl_D : Rabs (rdot (vreal sd) (vreal nrm) - D) <= u * (L * W).
Proof.
  unfold D. rewrite <- rdot_sub_l. eapply Rle_trans; [apply cauchy_schwarz|]. change (rnorm (rsub (vreal sd) d)) with (rdist (vreal sd) d). fold W.
  rewrite <- Rmult_assoc. apply Rmult_le_compat_r; [apply pl_W|exact Hd].
Qed.

(** the slope *)
Lemma slope_fin : finite_pt sd -> finite_pt nrm -> L * W <= bpow radix2 (e - 3) -> fin Dh.
Proof.
  intros F1 F2 H. pose proof (@u_pos p) as Hu. pose proof pl_u as Hu1. apply (dot_err fc fs fa fpi 3 sd nrm); [cbn; lra|exact F1|exact F2|].
  eapply Rle_trans; [apply absdot_norms|]. fold W. pose proof pl_W. pose proof pl_L.
  assert (LW0 : 0 <= L * W) by (apply Rmult_le_pos; assumption).
  apply Rle_trans with ((1 + u) * L * W); [apply Rmult_le_compat_r; [assumption|exact pl_sd]|].
  assert (E : bpow radix2 (e - 2) = 2 * bpow radix2 (e - 3)) by (replace (e - 2)%Z with (1 + (e - 3))%Z by lia; rewrite bpow_plus; reflexivity).
  rewrite E. assert (u * (L * W) <= 1 * (L * W)) by (apply Rmult_le_compat_r; lra). lra.
Qed.
Lemma slope_err : fin Dh -> Rabs (B2R Dh - D) <= slope_bound p e (vreal nrm) d.
Proof.
  intros F. pose proof (dot3_err fc fs fa fpi sd nrm Hn F) as K. fold S in K. fold Dh W in K. pose proof pl_D as KD. pose proof pl_u as Hu1. pose proof (@u_pos p) as Hu.
  pose proof (@eta_pos p e) as Hh. change (@ProofFloatErr.eta p e) with eta in *. pose proof pl_W. pose proof pl_L. unfold slope_bound. fold L W.
  assert (LW0 : 0 <= L * W) by (apply Rmult_le_pos; assumption). assert (uLW : 0 <= u * (L * W)) by (apply Rmult_le_pos; lra).
  assert (K1 : rnorm (vreal sd) * W <= (1 + u) * L * W) by (apply Rmult_le_compat_r; [assumption|exact pl_sd]).
  assert (K2 : 42 / 10 * u * (rnorm (vreal sd) * W) <= 42 / 10 * u * ((1 + u) * L * W)) by (apply Rmult_le_compat_l; lra).
  assert (K3 : u * (u * (L * W)) <= 1 / 128 * (u * (L * W))) by (apply Rmult_le_compat_r; lra).
  replace (B2R Dh - D) with (B2R Dh - rdot (vreal sd) (vreal nrm) + (rdot (vreal sd) (vreal nrm) - D)) by ring.
  eapply Rle_trans; [apply Rabs_triang|]. lra.
Qed.

(** the computed parameter solves the equation of the plane *)
Lemma hit_plane : fin Dh -> fin T ->
  Rabs (rdot (vreal nrm) (rsub (along (vreal o) d (B2R T)) (vreal po))) <= plane_bound p e (vreal po) (vreal nrm) (vreal o) d (B2R T).
Proof.
  intros FD FT. pose proof (param_err fc fs fa fpi po o nrm sd Hn FD FT) as K. cbv zeta in K. fold S in K. fold Nh Dh in K. fold T in K. fold W M in K.
  change (@ProofFloatErr.eta p e) with eta in *. set (N := rdot (rsub (vreal po) (vreal o)) (vreal nrm)) in *.
  assert (E : rdot (vreal nrm) (rsub (along (vreal o) d (B2R T)) (vreal po)) = B2R T * rdot (vreal sd) (vreal nrm) - N - B2R T * (rdot (vreal sd) (vreal nrm) - D)).
  { unfold N, D. clear. destruct (vreal nrm) as (n0 & n1 & n2 & []), (vreal o) as (o0 & o1 & o2 & []), (vreal po) as (p0 & p1 & p2 & []), d as (d0 & d1 & d2 & []), (vreal sd) as (s0 & s1 & s2 & []).
    unfold along, radd, rscale, rsub, rdot. cbn. ring. }
  rewrite E. unfold Rminus at 1. eapply Rle_trans; [apply Rabs_triang|]. rewrite Rabs_Ropp, Rabs_mult.
  pose proof pl_D as KD. pose proof pl_W. pose proof pl_L. pose proof pl_M. pose proof pl_u as Hu1. pose proof (@u_pos p) as Hu. pose proof (@eta_pos p e) as Hh. change (@ProofFloatErr.eta p e) with eta in *.
  set (t := Rabs (B2R T)) in *. assert (t0 : 0 <= t) by apply Rabs_pos.
  assert (LW0 : 0 <= L * W) by (apply Rmult_le_pos; assumption). assert (MW0 : 0 <= M * W) by (apply Rmult_le_pos; assumption).
  assert (KD' : t * Rabs (rdot (vreal sd) (vreal nrm) - D) <= t * (u * (L * W))) by (apply Rmult_le_compat_l; [exact t0|exact KD]).
  assert (K1 : rnorm (vreal sd) * W <= (1 + u) * L * W) by (apply Rmult_le_compat_r; [assumption|exact pl_sd]).
  set (X := rnorm (vreal sd) * W) in *.
  assert (K2 : u * t * X <= u * t * ((1 + u) * L * W)) by (apply Rmult_le_compat_l; [apply Rmult_le_pos; lra|exact K1]).
  assert (utLW : 0 <= u * t * (L * W)) by (repeat apply Rmult_le_pos; lra).
  assert (K3 : u * (u * t * (L * W)) <= 1 / 128 * (u * t * (L * W))) by (apply Rmult_le_compat_r; lra).
  assert (K4 : X <= 3 / 2 * (L * W)). { assert (u * (L * W) <= 1 / 128 * (L * W)) by (apply Rmult_le_compat_r; lra). lra. }
  assert (K5 : eta * X <= eta * (3 / 2 * (L * W))) by (apply Rmult_le_compat_l; lra).
  unfold plane_bound. fold L W M. fold t.
  replace (u * W * (5 * (t * rnorm (vreal sd)) + 7 * M) + eta * (4 * t + 2 * X + 5)) with (5 * (u * t * X) + 7 * (u * (M * W)) + (4 * (eta * t) + 2 * (eta * X) + 5 * eta)) in K by (unfold X; ring).
  replace (7 * u * W * (t * L + M) + eta * (4 * t + 3 * (L * W) + 5)) with (7 * (u * t * (L * W)) + 7 * (u * (M * W)) + (4 * (eta * t) + 3 * (eta * (L * W)) + 5 * eta)) by ring.
  change (rdot (vreal sd) (vreal nrm)) with (rdot (vreal sd) (vreal nrm)) in *. lra.
Qed.

(** the point at a parameter *)
Lemma hit_point (t : bf) : finite_pt (@vadd S 3 o (@vscale S 3 t sd) : vec bf 3) ->
  fin t /\ finite_pt o /\ rdist (vreal (@vadd S 3 o (@vscale S 3 t sd))) (along (vreal o) d (B2R t)) <= point_bound p e (vreal o) d (B2R t).
Proof.
  intros F. pose proof (point_dist fc fs fa fpi 3 o sd t pl_u F ltac:(lia)) as K. cbv zeta in K. fold S in K.
  destruct (point_err fc fs fa fpi 3 o sd t pl_u F ltac:(lia)) as (Fo & _ & Ft & _). split; [exact Ft|]. split; [exact Fo|].
  set (q := vreal (@vadd S 3 o (@vscale S 3 t sd))) in *.
  eapply Rle_trans; [apply (rdist_triangle _ (along (vreal o) (vreal sd) (B2R t)))|].
  assert (E : rdist (along (vreal o) (vreal sd) (B2R t)) (along (vreal o) d (B2R t)) = Rabs (B2R t) * rdist (vreal sd) d).
  { unfold rdist. rewrite <- rnorm_scale. f_equal. clear. destruct (vreal o) as (o0 & o1 & o2 & []), d as (d0 & d1 & d2 & []), (vreal sd) as (s0 & s1 & s2 & []).
    unfold along, radd, rscale, rsub. cbn. repeat (apply f_equal2; [ring|]). reflexivity. }
  rewrite E. change (@ProofFloatErr.eta p e) with eta in *. pose proof pl_L. pose proof pl_u as Hu1. pose proof (@u_pos p) as Hu. pose proof (@eta_pos p e) as Hh. change (@ProofFloatErr.eta p e) with eta in *.
  set (a := Rabs (B2R t)) in *. assert (a0 : 0 <= a) by apply Rabs_pos.
  assert (K1 : a * rdist (vreal sd) d <= a * (u * L)) by (apply Rmult_le_compat_l; [exact a0|exact Hd]).
  assert (K2 : u * a * rnorm (vreal sd) <= u * a * ((1 + u) * L)) by (apply Rmult_le_compat_l; [apply Rmult_le_pos; lra|exact pl_sd]).
  assert (uaL : 0 <= u * a * L) by (repeat apply Rmult_le_pos; lra).
  assert (K3 : u * (u * a * L) <= 1 / 128 * (u * a * L)) by (apply Rmult_le_compat_r; lra).
  replace (INR 3) with 3 in K by (cbn; ring). unfold point_bound. fold L. fold a. lra.
Qed.

(** finite parameters *)
Lemma param_finite : finite_pt po -> finite_pt o -> finite_pt nrm -> finite_pt sd -> 
  roomy e (vreal po) (vreal nrm) (vreal o) d -> 2 * slope_bound p e (vreal nrm) d <= Rabs D -> fin Dh /\ fin T.
Proof.
  intros Fpo Fo Fn Fd (R1 & R2 & R3 & R4) HD. fold W L in R1. fold M in R2. fold M W in R3. fold M W D in R4. pose proof pl_W. pose proof pl_L. pose proof pl_M. pose proof pl_u as Hu1. pose proof (@u_pos p) as Hu. pose proof (@eta_pos p e) as Hh. change (@ProofFloatErr.eta p e) with eta in *.
  assert (FD : fin Dh) by (apply slope_fin; assumption). split; [exact FD|]. pose proof (slope_err FD) as ED.
  assert (Heu : eta <= u) by (apply bpow_le; unfold Prec_gt_0 in Hp; unfold Prec_lt_emax in He; lia).
  assert (MW0 : 0 <= M * W) by (apply Rmult_le_pos; assumption). assert (LW0 : 0 <= L * W) by (apply Rmult_le_pos; assumption).
  assert (E2 : bpow radix2 e = 8 * bpow radix2 (e - 3)) by (replace e with (3 + (e - 3))%Z at 1 by lia; rewrite bpow_plus; reflexivity).
  assert (E3 : bpow radix2 (e - 2) = 2 * bpow radix2 (e - 3)) by (replace (e - 2)%Z with (1 + (e - 3))%Z by lia; rewrite bpow_plus; reflexivity).
  assert (B0 : 0 < bpow radix2 (e - 3)) by apply bpow_gt_0.
  assert (Fc : finite_pt (@vsub S 3 po o : vec bf 3)) by (apply (sub_finite_near fc fs fa fpi 3 po o); [lra| | |]; assumption).
  set (c := @vsub S 3 po o : vec bf 3) in *.
  pose proof (sub_err fc fs fa fpi 3 po o Fpo Fo Fc) as Hs. fold S in Hs. fold c M in Hs.
  set (a := rsub (vreal po) (vreal o)) in *. 
  assert (Hc : rnorm (vreal c) <= M + u * M).
  { replace (vreal c) with (radd a (rsub (vreal c) a)) by apply radd_rsub. eapply Rle_trans; [apply rnorm_triangle|]. apply Rplus_le_compat_l. exact Hs. }
  assert (HcW : rnorm (vreal c) * W <= (1 + u) * (M * W)).
  { apply Rle_trans with ((M + u * M) * W); [apply Rmult_le_compat_r; assumption|]. lra. }
  assert (uMW : u * (M * W) <= 1 / 128 * (M * W)) by (apply Rmult_le_compat_r; lra).
  assert (FN : fin Nh).
  { apply (dot_err fc fs fa fpi 3 c nrm); [cbn; lra|exact Fc|exact Fn|]. eapply Rle_trans; [apply absdot_norms|]. fold W. lra. }
  pose proof (dot3_err fc fs fa fpi c nrm Hn FN) as EN. fold S in EN. fold Nh W in EN. change (@ProofFloatErr.eta p e) with eta in EN.
  pose proof (cauchy_schwarz (vreal c) (vreal nrm)) as CS. fold W in CS.
  assert (KN : 42 / 10 * u * (rnorm (vreal c) * W) <= 1 / 8 * ((1 + u) * (M * W))).
  { apply Rle_trans with (1 / 8 * (rnorm (vreal c) * W)); [|lra]. apply Rmult_le_compat_r; [apply Rmult_le_pos; [apply rnorm_nonneg|assumption]|lra]. }
  assert (BN : Rabs (B2R Nh) <= 2 * (M * W + 1)).
  { replace (B2R Nh) with (rdot (vreal c) (vreal nrm) + (B2R Nh - rdot (vreal c) (vreal nrm))) by ring. eapply Rle_trans; [apply Rabs_triang|]. lra. }
  assert (BD : Rabs D <= 2 * Rabs (B2R Dh)).
  { assert (Rabs D <= Rabs (B2R Dh) + Rabs (B2R Dh - D)); [|lra]. replace D with (B2R Dh - (B2R Dh - D)) at 1 by ring. unfold Rminus at 1. eapply Rle_trans; [apply Rabs_triang|]. rewrite Rabs_Ropp. lra. }
  assert (D0 : 0 < Rabs (B2R Dh)) by (assert (0 < Rabs D); [|lra]; destruct (Rle_or_lt (Rabs D) 0) as [Q|Q]; [|exact Q]; assert (bpow radix2 (e - 3) * Rabs D <= bpow radix2 (e - 3) * 0) by (apply Rmult_le_compat_l; lra); lra).
  assert (Dn : B2R Dh <> 0) by (intros Q; rewrite Q, Rabs_R0 in D0; lra).
  assert (BQ : Rabs (B2R Nh / B2R Dh) <= 4 * bpow radix2 (e - 3)).
  { unfold Rdiv. rewrite Rabs_mult, Rabs_inv. apply Rmult_le_reg_r with (Rabs (B2R Dh)); [exact D0|]. rewrite Rmult_assoc, Rinv_l, Rmult_1_r by lra.
    assert (bpow radix2 (e - 3) * Rabs D <= bpow radix2 (e - 3) * (2 * Rabs (B2R Dh))) by (apply Rmult_le_compat_l; lra). lra. }
  assert (BR : Rabs (rnd (B2R Nh / B2R Dh)) < bpow radix2 e).
  { apply Rle_lt_trans with (4 * bpow radix2 (e - 3)); [|lra].
    assert (E4 : 4 * bpow radix2 (e - 3) = bpow radix2 (e - 1)) by (replace (e - 1)%Z with (2 + (e - 3))%Z by lia; rewrite bpow_plus; reflexivity).
    rewrite E4 in *. rewrite <- rnd_abs, <- (rnd_id (p := p) (e := e) (bpow radix2 (e - 1))) by (apply fmt_pow; unfold Prec_gt_0 in Hp; unfold Prec_lt_emax in He; lia).
    apply rnd_le. exact BQ. }
  unfold T. apply (div_ok Nh Dh FN Dn BR).
Qed.

(** the parameter is near every exact one *)
Lemma param_near tau : fin Dh -> fin T -> slope_bound p e (vreal nrm) d <= Rabs D ->
  on_plane (vreal po) (vreal nrm) (along (vreal o) d tau) ->
  Rabs (B2R T - tau) * (Rabs D - slope_bound p e (vreal nrm) d) <= plane_bound p e (vreal po) (vreal nrm) (vreal o) d tau.
Proof.
  intros FD FT HD Hpl. pose proof (hit_plane FD FT) as K. unfold on_plane in Hpl.
  assert (E : rdot (vreal nrm) (rsub (along (vreal o) d (B2R T)) (vreal po)) = (B2R T - tau) * D).
  { rewrite <- (Rminus_0_r (rdot _ _)), <- Hpl. unfold D. clear. destruct (vreal nrm) as (n0 & n1 & n2 & []), (vreal o) as (o0 & o1 & o2 & []), (vreal po) as (p0 & p1 & p2 & []), d as (d0 & d1 & d2 & []).
    unfold along, radd, rscale, rsub, rdot. cbn. ring. }
  rewrite E, Rabs_mult in K. unfold plane_bound in K |- *. unfold slope_bound in HD |- *. fold W L M in K. fold W L M. fold W L in HD.
  pose proof pl_W. pose proof pl_L. pose proof (@u_pos p) as Hu. pose proof (@eta_pos p e) as Hh. change (@ProofFloatErr.eta p e) with eta in *.
  assert (B : Rabs (B2R T) <= Rabs (B2R T - tau) + Rabs tau) by (replace (B2R T) with (B2R T - tau + tau) at 1 by ring; apply Rabs_triang).
  set (x := Rabs (B2R T - tau)) in *. set (y := Rabs (B2R T)) in *. set (z := Rabs tau) in *.
  assert (A0 : 0 <= 7 * u * (L * W) + 4 * eta). { assert (0 <= u * (L * W)) by (repeat apply Rmult_le_pos; lra). lra. }
  assert (K1 : (7 * u * (L * W) + 4 * eta) * y <= (7 * u * (L * W) + 4 * eta) * (x + z)) by (apply Rmult_le_compat_l; lra).
  lra.
Qed.
End PL.

Lemma near_hit_forward p e {n} (po nrm o d q : vec R n) T x : near_hit p e po nrm o d q T ->
  on_plane po nrm x -> on_line o d x -> rdot d nrm <> 0 ->
  rdist q x <= point_bound p e o d T + plane_bound p e po nrm o d T * (rnorm d / Rabs (rdot d nrm)).
Proof.
  intros [H1 H2] Hx [s ->] HD. unfold on_plane in Hx.
  assert (E : rdot nrm (rsub (along o d T) po) = (T - s) * rdot d nrm).
  { rewrite <- (Rminus_0_r (rdot nrm (rsub (along o d T) po))), <- Hx. unfold along. vring. }
  assert (E2 : rdist (along o d T) (along o d s) = Rabs (T - s) * rnorm d).
  { unfold rdist. rewrite <- rnorm_scale. unfold rnorm. f_equal. unfold along. vring. }
  assert (A0 : 0 < Rabs (rdot d nrm)) by (apply Rabs_pos_lt, HD).
  rewrite E, Rabs_mult in H2. eapply Rle_trans; [apply (rdist_triangle _ (along o d T))|]. apply Rplus_le_compat; [exact H1|]. rewrite E2.
  replace (Rabs (T - s) * rnorm d) with (Rabs (T - s) * Rabs (rdot d nrm) * (rnorm d / Rabs (rdot d nrm))) by (field; lra).
  apply Rmult_le_compat_r; [|exact H2]. apply Rmult_le_pos; [apply rnorm_nonneg|left; apply Rinv_0_lt_compat, A0].
Qed.
