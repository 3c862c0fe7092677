(** * Vertices of cones and cylinders in floating point *)

From Coq Require Import List Bool Arith Lia ZArith Reals Lra Psatz.
From Flocq Require Import Core BinarySingleNaN.
From Verif Require Import Scalar Linal Result SpecReal VecR VecLemmas ModelShapes ModelTransform SpecTransform ModelMesh SpecMesh ModelTess SpecTess
  SpecIEEE SpecFloatErr SpecFloatTess ProofMeshNormal ProofTransform ProofTessComb ProofTessConn ProofTessMesh ProofTessSphere ProofTessRound ProofTess ProofRound ProofIEEE ProofFloatErr ProofFloatNorm ProofFloatDist
  ProofFloatTrig ProofMeshIEEE ProofFloatTess.
Import ListNotations.
Local Open Scope R_scope.

(** ** Exact positions *)

(** the entries of a rotation are at most 1 *)
Lemma rigid_entry (A : vec (vec R 3) 3) : rigid (affine A rzero) -> forall i j, (i < 3)%nat -> (j < 3)%nat -> Rabs (vnth 0 j (vnth rzero i A)) <= 1.
Proof.
  intros HA.
  assert (C : forall x : vec R 3, rdot x x = 1 -> rdot (vmap (fun row => rdot row x) A) (vmap (fun row => rdot row x) A) = 1).
  { intros x Hx. specialize (HA x rzero). unfold rdist, rnorm in HA.
    assert (E : rsub (affine A rzero x) (affine A rzero rzero) = vmap (fun row => rdot row x) A).
    { unfold affine. destruct A as (u & v & w & []). v3. cbn. repeat (apply f_equal2; [ring|]). reflexivity. }
    rewrite E in HA. replace (rsub x rzero) with x in HA by (v3; cbn; repeat (apply f_equal2; [ring|]); reflexivity).
    rewrite Hx in HA. apply sqrt_inj in HA; [exact HA|apply rdot_self_nonneg|lra]. }
  pose proof (C (1, (0, (0, tt))) ltac:(cbn; ring)) as C0. pose proof (C (0, (1, (0, tt))) ltac:(cbn; ring)) as C1.
  pose proof (C (0, (0, (1, tt))) ltac:(cbn; ring)) as C2. clear C HA.
  destruct A as ((a & b & c & []) & (d & e & f & []) & (g & h & k & []) & []). cbn in C0, C1, C2.
  assert (D0 : a * a + (d * d + g * g) = 1) by (rewrite <- C0; ring).
  assert (D1 : b * b + (e * e + h * h) = 1) by (rewrite <- C1; ring).
  assert (D2 : c * c + (f * f + k * k) = 1) by (rewrite <- C2; ring).
  assert (K : forall x y z, x * x + (y * y + z * z) = 1 -> Rabs x <= 1 /\ Rabs y <= 1 /\ Rabs z <= 1).
  { intros x y z H. assert (J : forall w, w * w <= 1 -> Rabs w <= 1).
    { intros w Hw. apply Rabs_le. split; nra. }
    pose proof (Rle_0_sqr x). pose proof (Rle_0_sqr y). pose proof (Rle_0_sqr z). unfold Rsqr in *. repeat split; apply J; lra. }
  apply K in D0 as (? & ? & ?). apply K in D1 as (? & ? & ?). apply K in D2 as (? & ? & ?).
  intros [|[|[|i]]] [|[|[|j]]] Hi Hj; try lia; cbn; assumption.
Qed.

Lemma cyl_dist2 r ph z ph' z' :
  let d := rsub (cylindrical r ph z) (cylindrical r ph' z') in let s := sin ((ph - ph') / 2) in
  rdot d d = r * r * (4 * (s * s)) + (z - z') * (z - z').
Proof.
  intros d s. unfold s. rewrite <- cos_half, cos_minus. unfold d, cylindrical.
  pose proof (sin2_cos2 ph) as K2. pose proof (sin2_cos2 ph') as K4. unfold Rsqr in *. cbn -[sin cos].
  transitivity (r * r * ((sin ph * sin ph + cos ph * cos ph) + (sin ph' * sin ph' + cos ph' * cos ph') - 2 * (cos ph * cos ph' + sin ph * sin ph')) + (z - z') * (z - z')); [ring|].
  rewrite K2, K4. ring.
Qed.
Lemma axis_dist2 r ph z z' : let d := rsub (cylindrical r ph z) (0, (0, (z', tt))) in rdot d d = r * r + (z - z') * (z - z').
Proof.
  intros d. unfold d, cylindrical. pose proof (sin2_cos2 ph) as K2. unfold Rsqr in K2. cbn -[sin cos].
  transitivity (r * r * (sin ph * sin ph + cos ph * cos ph) + (z - z') * (z - z')); [ring|]. rewrite K2. ring.
Qed.
Lemma rdot_sub_sym (x y : vec R 3) : rdot (rsub x y) (rsub x y) = rdot (rsub y x) (rsub y x).
Proof. v3. ring. Qed.

Section Apart.
  Context (na : nat) (Hna : (3 <= na)%nat) (A : vec (vec R 3) 3) (src : vec R 3) (HA : rigid (affine A rzero)).
  Context (r l g : R) (Hg : 0 < g) (Hgr : INR na * g <= r) (Hgl : 2 * g <= l).

  Lemma moved_apart (x y : vec R 3) : 3 * (g * g) <= rdot (rsub x y) (rsub x y) ->
    exists i, (i < 3)%nat /\ g <= Rabs (vnth 0 i (affine A src x) - vnth 0 i (affine A src y)).
  Proof.
    intros H. pose proof (rigid_shift A src HA x y) as E. unfold rdist in E.
    assert (E2 : rdot (rsub (affine A src x) (affine A src y)) (rsub (affine A src x) (affine A src y)) = rdot (rsub x y) (rsub x y)).
    { rewrite <- !rnorm_sq, E. reflexivity. }
    rewrite <- E2 in H. destruct (long_coordinate _ _ Hg H) as (i & Hi & K). exists i. split; [exact Hi|]. rewrite <- vnth_rsub by exact Hi. exact K.
  Qed.
  Lemma big_r : 9 * (g * g) <= r * r.
  Proof.
    assert (3 <= INR na) by (apply (le_INR 3) in Hna; cbn in Hna; lra).
    assert (3 * g <= r) by (eapply Rle_trans; [|exact Hgr]; apply Rmult_le_compat_r; lra). nra.
  Qed.
  Lemma big_l : 4 * (g * g) <= l * l.
  Proof. nra. Qed.
  Lemma big_step i j : (i < na)%nat -> (j < na)%nat -> i <> j ->
    let s := sin ((azi na i - azi na j) / 2) in 3 * (g * g) <= r * r * (4 * (s * s)).
  Proof.
    intros Hi Hj Hne s.
    assert (N3 : 3 <= INR na) by (apply (le_INR 3) in Hna; cbn in Hna; lra).
    pose proof (frac_diff na i j Hne ltac:(lia) ltac:(lia)) as F. cbn zeta in F.
    assert (Es : sin ((INR i - INR j) * (PI / INR na)) = s) by (unfold s, azi; f_equal; field; lra).
    rewrite Es in F. assert (Hng : 0 <= INR na * g) by (apply Rmult_le_pos; lra).
    assert (G : (INR na * g) * (INR na * g) <= r * r) by (apply Rmult_le_compat; assumption).
    assert (K : (INR na * g) * (INR na * g) * (4 * (2 / INR na * (2 / INR na))) <= r * r * (4 * (s * s))).
    { apply Rmult_le_compat; [apply Rmult_le_pos; assumption| |exact G|lra]. assert (0 <= 2 / INR na * (2 / INR na)) by apply Rle_0_sqr. lra. }
    replace (INR na * g * (INR na * g) * (4 * (2 / INR na * (2 / INR na)))) with (16 * (g * g)) in K by (field; lra).
    assert (0 <= g * g) by apply Rle_0_sqr. lra.
  Qed.

  Lemma kpos_apart v w : kv_ok na v -> kv_ok na w -> v <> w ->
    exists i, (i < 3)%nat /\ g <= Rabs (vnth 0 i (affine A src (kpos na r l v)) - vnth 0 i (affine A src (kpos na r l w))).
  Proof.
    intros Hv Hw Hne. apply moved_apart. pose proof big_r as Br. pose proof big_l as Bl. assert (0 <= g * g) by apply Rle_0_sqr.
    pose proof (Rle_0_sqr l) as l2. unfold Rsqr in l2.
    destruct v as [| |i], w as [| |j]; cbn [kpos kv_ok] in *; try (exfalso; apply Hne; reflexivity).
    - cbn. lra.
    - rewrite rdot_sub_sym, axis_dist2. lra.
    - cbn. lra.
    - rewrite rdot_sub_sym, axis_dist2. lra.
    - rewrite axis_dist2. lra.
    - rewrite axis_dist2. lra.
    - rewrite cyl_dist2. pose proof (big_step i j Hv Hw ltac:(intros ->; apply Hne; reflexivity)). cbn zeta in *. lra.
  Qed.
  Lemma ypos_apart v w : yv_ok na v -> yv_ok na w -> v <> w ->
    exists i, (i < 3)%nat /\ g <= Rabs (vnth 0 i (affine A src (ypos na r l v)) - vnth 0 i (affine A src (ypos na r l w))).
  Proof.
    intros Hv Hw Hne. apply moved_apart. pose proof big_r as Br. pose proof big_l as Bl. assert (G : 0 <= g * g) by apply Rle_0_sqr.
    pose proof (Rle_0_sqr l) as l2. unfold Rsqr in l2.
    assert (R : forall x y : R, 0 <= r * r * (4 * (x * x)) + 0 * y).
    { intros x y. pose proof (Rle_0_sqr x). unfold Rsqr in *. assert (0 <= r * r * (4 * (x * x))) by (apply Rmult_le_pos; lra). lra. }
    destruct v as [| |i|i], w as [| |j|j]; cbn [ypos yv_ok] in *; try (exfalso; apply Hne; reflexivity);
      try (cbn; lra); try (rewrite rdot_sub_sym, axis_dist2; lra); try (rewrite axis_dist2; lra); rewrite cyl_dist2; cbn zeta.
    - pose proof (big_step i j Hv Hw ltac:(intros ->; apply Hne; reflexivity)). cbn zeta in *. lra.
    - specialize (R (sin ((azi na i - azi na j) / 2)) 0). lra.
    - specialize (R (sin ((azi na i - azi na j) / 2)) 0). lra.
    - pose proof (big_step i j Hv Hw ltac:(intros ->; apply Hne; reflexivity)). cbn zeta in *. lra.
  Qed.
End Apart.

Definition kvert_dec (v w : kvert) : {v = w} + {v <> w}.
Proof. decide equality; apply Nat.eq_dec. Defined.
Definition yvert_dec (v w : yvert) : {v = w} + {v <> w}.
Proof. decide equality; apply Nat.eq_dec. Defined.

(** ** Computed positions *)
Section Round.
Context {p e : Z} {Hp : Prec_gt_0 p} {He : Prec_lt_emax p e} (H2 : (2 < p)%Z).
Notation bf := (binary_float p e).
Notation fadd := (@Bplus p e Hp He mode_NE).
Notation fmul := (@Bmult p e Hp He mode_NE).
Notation u := (uround p).
Notation eta := (@ProofFloatErr.eta p e).
Notation one := (ieee_pow p e Hp He 1 0).
Notation zero := (B754_zero false : bf).
Context (fc fs fa : bf -> bf) (fpi : bf).
Let S := IEEE p e Hp He fc fs fa fpi.
Context (d : R) (Ht : trig_accurate d fc fs fpi) (Hd : d <= 1 / 900).
Context (rho kap M : R) (Hrho : 0 < rho) (HrE : rho <= bpow radix2 (e - 4)) (Heta : eta <= d * rho)
  (Hkap : 0 <= kap) (Hkr : 60 * kap <= rho) (HM0 : 0 <= M) (HME : M <= bpow radix2 (e - 4)).
Notation eps := (41 * (d * rho) + 3 * kap).

Lemma small_facts : 0 < u /\ u <= d /\ 0 < d * rho /\ d * rho <= rho / 900 /\ bpow radix2 e = 16 * bpow radix2 (e - 4) /\
  (forall x, 0 <= x -> x <= rho -> u * x <= d * rho) /\ 0 <= u * M /\ u * M <= M / 900.
Proof.
  pose proof (@u_pos p) as Hu. pose proof (ta_round _ _ _ _ Ht) as Hud.
  split; [exact Hu|]. split; [exact Hud|]. split; [apply Rmult_lt_0_compat; lra|].
  split; [assert (d * rho <= 1 / 900 * rho) by (apply Rmult_le_compat_r; lra); lra|].
  split; [change 16 with (bpow radix2 4); rewrite <- bpow_plus; f_equal; lia|].
  split; [intros x X0 X1; apply Rmult_le_compat; lra|].
  split; [apply Rmult_le_pos; lra|]. assert (u * M <= 1 / 900 * M) by (apply Rmult_le_compat_r; lra). lra.
Qed.

Lemma last_exact (a : bf) : fin a -> fin (fadd (fmul a one) zero) /\ B2R (fadd (fmul a one) zero) = B2R a.
Proof.
  intros Fa. destruct (@one_spec p e Hp He) as (F1 & E1).
  assert (E : rndf p e (B2R a) = B2R a).
  { apply rnd_id. exact (generic_format_B2R p e a). }
  assert (Ea : rndf p e (B2R a * B2R one) = B2R a) by (rewrite E1, Rmult_1_r; exact E).
  destruct (@mul_ok p e Hp He a one Fa F1) as (F & Em); [rewrite Ea; apply fin_lt; exact Fa|].
  rewrite Ea in Em.
  assert (Ez : rndf p e (B2R (fmul a one) + B2R zero) = B2R a) by (rewrite Em; change (B2R zero) with 0; rewrite Rplus_0_r; exact E).
  destruct (@add_ok p e Hp He (fmul a one) zero F eq_refl) as (F' & Es); [rewrite Ez; apply fin_lt; exact Fa|].
  split; [exact F'|]. rewrite Es. exact Ez.
Qed.

Lemma product_close a q A Q : fin a -> fin q -> Rabs (B2R a - A) <= d -> Rabs A <= 1 -> Rabs (B2R q - Q) <= eps -> Rabs Q <= rho ->
  (fin (fmul a q) /\ Rabs (B2R (fmul a q) - A * Q) <= 45 * (d * rho) + 3 * kap) /\ Rabs (A * Q) <= rho.
Proof.
  intros Fa Fq Ha HA Hq HQ. destruct small_facts as (Hu & Hud & dr & dr' & E16 & Hux & uM & uM').
  split.
  - apply (mul_close a q A Q d eps 1 rho); try assumption; [|lra].
    assert (K : d * (rho + eps) <= 11 / 10 * (d * rho)).
    { replace (11 / 10 * (d * rho)) with (d * (11 / 10 * rho)) by field. apply Rmult_le_compat_l; lra. }
    assert (U : u * (1 * rho + (d * (rho + eps) + 1 * eps)) <= 11 / 10 * (d * rho)).
    { apply Rle_trans with (u * (11 / 10 * rho)); [apply Rmult_le_compat_l; lra|]. pose proof (Hux rho). lra. }
    lra.
  - rewrite Rabs_mult. apply Rle_trans with (1 * rho); [|lra]. apply Rmult_le_compat; try apply Rabs_pos; assumption.
Qed.

Lemma row_close a0 a1 a2 a3 q0 q1 q2 A0 A1 A2 Q0 Q1 Q2 :
  fin a0 -> fin a1 -> fin a2 -> fin a3 -> fin q0 -> fin q1 -> fin q2 ->
  Rabs (B2R a0 - A0) <= d -> Rabs (B2R a1 - A1) <= d -> Rabs (B2R a2 - A2) <= d -> Rabs A0 <= 1 -> Rabs A1 <= 1 -> Rabs A2 <= 1 ->
  Rabs (B2R q0 - Q0) <= eps -> Rabs (B2R q1 - Q1) <= eps -> Rabs (B2R q2 - Q2) <= eps -> Rabs Q0 <= rho -> Rabs Q1 <= rho -> Rabs Q2 <= rho ->
  Rabs (B2R a3) <= M ->
  let x := fadd (fmul a0 q0) (fadd (fmul a1 q1) (fadd (fmul a2 q2) (fadd (fmul a3 one) zero))) in
  fin x /\ Rabs (B2R x - (A0 * Q0 + (A1 * Q1 + (A2 * Q2 + B2R a3)))) <= 148 * (d * rho) + 9 * kap + 31 / 10 * (u * M).
Proof.
  intros F0 F1 F2 F3 G0 G1 G2 a0A a1A a2A B0 B1 B2 q0Q q1Q q2Q R0 R1 R2 HM x.
  destruct small_facts as (Hu & Hud & dr & dr' & E16 & Hux & uM & uM'). pose proof (Hux rho ltac:(lra) ltac:(lra)) as ur.
  destruct (product_close a0 q0 A0 Q0 F0 G0 a0A B0 q0Q R0) as ((P0 & D0) & C0).
  destruct (product_close a1 q1 A1 Q1 F1 G1 a1A B1 q1Q R1) as ((P1 & D1) & C1).
  destruct (product_close a2 q2 A2 Q2 F2 G2 a2A B2 q2Q R2) as ((P2 & D2) & C2).
  destruct (last_exact a3 F3) as (P3 & D3).
  assert (D3' : Rabs (B2R (fadd (fmul a3 one) zero) - B2R a3) <= 0) by (rewrite D3; unfold Rminus; rewrite Rplus_opp_r, Rabs_R0; lra).
  assert (N2 : Rabs (A2 * Q2 + B2R a3) <= rho + M) by (eapply Rle_trans; [apply Rabs_triang|]; lra).
  assert (N1 : Rabs (A1 * Q1 + (A2 * Q2 + B2R a3)) <= 2 * rho + M) by (eapply Rle_trans; [apply Rabs_triang|]; lra).
  assert (N0 : Rabs (A0 * Q0 + (A1 * Q1 + (A2 * Q2 + B2R a3))) <= 3 * rho + M) by (eapply Rle_trans; [apply Rabs_triang|]; lra).
  assert (K : forall x y X, 0 <= x -> X <= x * rho + y * M -> u * X <= x * (d * rho) + y * (u * M)).
  { intros y z X Y HX. apply Rle_trans with (u * (y * rho + z * M)); [apply Rmult_le_compat_l; lra|].
    replace (u * (y * rho + z * M)) with (y * (u * rho) + z * (u * M)) by ring. apply Rplus_le_compat_r. apply Rmult_le_compat_l; lra. }
  destruct (add_close _ _ _ _ _ _ (rho + M) (48 * (d * rho) + 3 * kap + u * M) P2 P3 D2 D3' N2) as (S2 & T2).
  { assert (u * (rho + M + (45 * (d * rho) + 3 * kap + 0)) <= 2 * (d * rho) + 1 * (u * M)) by (apply K; lra). lra. }
  { lra. }
  destruct (add_close _ _ _ _ _ _ (2 * rho + M) (97 * (d * rho) + 6 * kap + 201 / 100 * (u * M)) P1 S2 D1 T2 N1) as (S1 & T1).
  { assert (u * (2 * rho + M + (45 * (d * rho) + 3 * kap + (48 * (d * rho) + 3 * kap + u * M))) <= 23 / 10 * (d * rho) + 101 / 100 * (u * M)) by (apply K; lra). lra. }
  { lra. }
  destruct (add_close _ _ _ _ _ _ (3 * rho + M) (148 * (d * rho) + 9 * kap + 31 / 10 * (u * M)) P0 S1 D0 T1 N0) as (S0 & T0).
  { assert (u * (3 * rho + M + (45 * (d * rho) + 3 * kap + (97 * (d * rho) + 6 * kap + 201 / 100 * (u * M)))) <= 34 / 10 * (d * rho) + 102 / 100 * (u * M)) by (apply K; lra). lra. }
  { lra. }
  split; [exact S0|exact T0].
Qed.

Definition bounded (q : vec R 3) : Prop := forall i, (i < 3)%nat -> Rabs (vnth 0 i q) <= rho.

Lemma place_close (meq : hmat S -> hmat S -> bool) (X : hmat S) (A : vec (vec R 3) 3) (src : vec bf 3) t (q : vec bf 3) (Q : vec R 3) :
  0 <= t -> rigid (affine A rzero) -> identity_within meq t -> rotation_within d A (X : hmat bf) ->
  finite_pt src -> (forall i, (i < 3)%nat -> Rabs (fval i src) <= M) ->
  close_to eps q Q -> bounded Q ->
  close_to (150 * (d * rho) + 10 * kap + 4 * (u * M) + t * (1 + 3 * rho)) (place meq (@set_translation S X src) q : vec bf 3) (affine A (vreal src) Q).
Proof.
  intros t0 HA Hm HX Fs HsM (Fq & Hq) HQ.
  destruct small_facts as (Hu & Hud & dr & dr' & E16 & Hux & uM & uM').
  assert (trho : 0 <= t * (1 + 3 * rho)) by (apply Rmult_le_pos; lra).
  pose proof (rigid_entry A HA) as HA1.
  destruct X as ((x00 & x01 & x02 & x03 & []) & (x10 & x11 & x12 & x13 & []) & (x20 & x21 & x22 & x23 & []) & (x30 & x31 & x32 & x33 & []) & []).
  destruct src as (s0' & s1' & s2' & []). destruct q as (q0 & q1 & q2 & []). destruct Q as (Q0 & Q1 & Q2 & []).
  destruct A as ((a00 & a01 & a02 & []) & (a10 & a11 & a12 & []) & (a20 & a21 & a22 & []) & []).
  assert (I0 : (0 < 3)%nat) by lia. assert (I1 : (1 < 3)%nat) by lia. assert (I2 : (2 < 3)%nat) by lia.
  pose proof (Fs _ I0) as Fs0. pose proof (Fs _ I1) as Fs1. pose proof (Fs _ I2) as Fs2.
  pose proof (HsM _ I0) as Ms0. pose proof (HsM _ I1) as Ms1. pose proof (HsM _ I2) as Ms2.
  pose proof (Fq _ I0) as Fq0. pose proof (Fq _ I1) as Fq1. pose proof (Fq _ I2) as Fq2.
  pose proof (Hq _ I0) as Eq0. pose proof (Hq _ I1) as Eq1. pose proof (Hq _ I2) as Eq2.
  pose proof (HQ _ I0) as Q0r. pose proof (HQ _ I1) as Q1r. pose proof (HQ _ I2) as Q2r.
  destruct (HX 0%nat 0%nat I0 I0) as (F00 & D00). destruct (HX 0%nat 1%nat I0 I1) as (F01 & D01). destruct (HX 0%nat 2%nat I0 I2) as (F02 & D02).
  destruct (HX 1%nat 0%nat I1 I0) as (F10 & D10). destruct (HX 1%nat 1%nat I1 I1) as (F11 & D11). destruct (HX 1%nat 2%nat I1 I2) as (F12 & D12).
  destruct (HX 2%nat 0%nat I2 I0) as (F20 & D20). destruct (HX 2%nat 1%nat I2 I1) as (F21 & D21). destruct (HX 2%nat 2%nat I2 I2) as (F22 & D22).
  pose proof (HA1 0%nat 0%nat I0 I0) as A00. pose proof (HA1 0%nat 1%nat I0 I1) as A01. pose proof (HA1 0%nat 2%nat I0 I2) as A02.
  pose proof (HA1 1%nat 0%nat I1 I0) as A10. pose proof (HA1 1%nat 1%nat I1 I1) as A11. pose proof (HA1 1%nat 2%nat I1 I2) as A12.
  pose proof (HA1 2%nat 0%nat I2 I0) as A20. pose proof (HA1 2%nat 1%nat I2 I1) as A21. pose proof (HA1 2%nat 2%nat I2 I2) as A22.
  clear HX HA1 HQ Hq Fq HsM Fs HA. cbn in * |-.
  unfold place. destruct (meq _ _) eqn:Em; cbn [negb].
  - pose proof (Hm _ Em) as K. clear Hm Em.
    assert (J0 : (0 < 4)%nat) by lia. assert (J1 : (1 < 4)%nat) by lia. assert (J2 : (2 < 4)%nat) by lia. assert (J3 : (3 < 4)%nat) by lia.
    pose proof (K _ _ J0 J0) as K00. pose proof (K _ _ J0 J1) as K01. pose proof (K _ _ J0 J2) as K02. pose proof (K _ _ J0 J3) as K03.
    pose proof (K _ _ J1 J0) as K10. pose proof (K _ _ J1 J1) as K11. pose proof (K _ _ J1 J2) as K12. pose proof (K _ _ J1 J3) as K13.
    pose proof (K _ _ J2 J0) as K20. pose proof (K _ _ J2 J1) as K21. pose proof (K _ _ J2 J2) as K22. pose proof (K _ _ J2 J3) as K23.
    clear K. cbn in K00, K01, K02, K03, K10, K11, K12, K13, K20, K21, K22, K23.
    assert (T : forall (x : bf) a b, Rabs (B2R x - a) <= d -> Rabs (B2R x - b) <= t -> Rabs (b - a) <= d + t).
    { intros x a b Ha Hb. replace (b - a) with ((B2R x - a) - (B2R x - b)) by ring. eapply Rle_trans; [apply Rabs_triang|]. rewrite Rabs_Ropp. lra. }
    assert (Z : forall b0 b1 b2 z0 z1 z2 (s : bf) qi Qi, Rabs b0 <= d + t -> Rabs b1 <= d + t -> Rabs b2 <= d + t -> Rabs z0 <= rho -> Rabs z1 <= rho -> Rabs z2 <= rho ->
      Rabs (B2R s - 0) <= t -> Rabs (qi - Qi) <= eps ->
      Rabs ((qi - Qi) + (b0 * z0 + (b1 * z1 + b2 * z2)) - (B2R s - 0)) <= 150 * (d * rho) + 10 * kap + 4 * (u * M) + t * (1 + 3 * rho)).
    { intros b0 b1 b2 z0 z1 z2 s qi Qi B0 B1 B2 Z0 Z1 Z2 Hs Hqi.
      assert (P : forall b z, Rabs b <= d + t -> Rabs z <= rho -> Rabs (b * z) <= (d + t) * rho).
      { intros b z Hb Hz. rewrite Rabs_mult. apply Rmult_le_compat; try apply Rabs_pos; assumption. }
      pose proof (P _ _ B0 Z0). pose proof (P _ _ B1 Z1). pose proof (P _ _ B2 Z2).
      eapply Rle_trans; [apply Rabs_triang|]. rewrite Rabs_Ropp.
      assert (Rabs (qi - Qi + (b0 * z0 + (b1 * z1 + b2 * z2))) <= eps + 3 * ((d + t) * rho)).
      { eapply Rle_trans; [apply Rabs_triang|]. pose proof (Rabs_triang (b0 * z0) (b1 * z1 + b2 * z2)). pose proof (Rabs_triang (b1 * z1) (b2 * z2)). lra. }
      lra. }
    split; [intros [|[|[|i]]] Hi; [exact Fq0|exact Fq1|exact Fq2|lia]|].
    intros [|[|[|i]]] Hi; [| | |lia]; unfold fval; cbn.
    + refine (Rle_trans _ _ _ (Req_le _ _ _) (Z _ _ _ Q0 Q1 Q2 s0' (B2R q0) Q0 (T _ _ _ D00 K00) (T _ _ _ D01 K01) (T _ _ _ D02 K02) Q0r Q1r Q2r K03 Eq0)).
      f_equal. ring.
    + refine (Rle_trans _ _ _ (Req_le _ _ _) (Z _ _ _ Q0 Q1 Q2 s1' (B2R q1) Q1 (T _ _ _ D10 K10) (T _ _ _ D11 K11) (T _ _ _ D12 K12) Q0r Q1r Q2r K13 Eq1)).
      f_equal. ring.
    + refine (Rle_trans _ _ _ (Req_le _ _ _) (Z _ _ _ Q0 Q1 Q2 s2' (B2R q2) Q2 (T _ _ _ D20 K20) (T _ _ _ D21 K21) (T _ _ _ D22 K22) Q0r Q1r Q2r K23 Eq2)).
      f_equal. ring.
  - destruct (row_close x00 x01 x02 s0' q0 q1 q2 a00 a01 a02 Q0 Q1 Q2) as (R0 & T0); try assumption.
    destruct (row_close x10 x11 x12 s1' q0 q1 q2 a10 a11 a12 Q0 Q1 Q2) as (R1 & T1); try assumption.
    destruct (row_close x20 x21 x22 s2' q0 q1 q2 a20 a21 a22 Q0 Q1 Q2) as (R2 & T2); try assumption.
    split.
    + intros [|[|[|i]]] Hi; [exact R0|exact R1|exact R2|lia].
    + assert (Fin : forall x X Y : R, Rabs (x - X) <= 148 * (d * rho) + 9 * kap + 31 / 10 * (u * M) -> X = Y ->
        Rabs (x - Y) <= 150 * (d * rho) + 10 * kap + 4 * (u * M) + t * (1 + 3 * rho)) by (intros x X Y HXx <-; lra).
      intros [|[|[|i]]] Hi; [| | |lia].
      * refine (Fin _ _ _ T0 _). cbn. ring.
      * refine (Fin _ _ _ T1 _). cbn. ring.
      * refine (Fin _ _ _ T2 _). cbn. ring.
Qed.

(** ** Points of circles *)
Context (na : nat) (Hna : (3 <= na)%nat) (Hnd : INR na * d <= 1 / 64).
Context (rad : bf) (Frad : fin rad) (Hr0 : 0 < B2R rad) (Hrr : B2R rad <= rho).

Definition fcircle (dir : direction) (z : bf) (j : nat) : point S :=
  let step := @sdiv S (smul (sadd s1 s1) spi) (sofnat na) in
  let step := match dir with CW => sopp step | CCW => step end in
  let angle := @smul S (sofnat j) step in
  @vadd S 3 (@mk3 S s0 s0 z) (@mk3 S (smul (scos angle) rad) (smul (ssin angle) rad) s0).
Definition vtx (dir : direction) (j : nat) : nat := match dir with CW => neg na j | CCW => j end.

Lemma fcircle_close dir z Z j : (j < na)%nat -> fin z -> Rabs (B2R z - Z) <= 6 * (d * rho) + 3 * kap -> Rabs Z <= rho ->
  close_to eps (fcircle dir z j : vec bf 3) (cylindrical (B2R rad) (azi na (vtx dir j)) Z).
Proof.
  intros Hj Fz Hz HZ. set (r := B2R rad) in *.
  destruct small_facts as (Hu & Hud & dr & dr' & E16 & Hux & uM & uM'). pose proof (Hux r ltac:(lra) Hrr) as ur.
  pose proof (@u_pos p). pose proof (@eta_pos p e) as e0.
  assert (Hd' : d <= 1 / 384) by lra.
  set (ang := @smul S (sofnat j) (match dir with CW => sopp (sdiv (smul (sadd s1 s1) spi) (sofnat na)) | CCW => sdiv (smul (sadd s1 s1) spi) (sofnat na) end)).
  assert (K : exists ph, fin (ang : bf) /\ Rabs (B2R (ang : bf) - ph) <= 34 * d /\ Rabs ph <= 8 /\ cos (azi na (vtx dir j)) = cos ph /\ sin (azi na (vtx dir j)) = sin ph).
  { destruct (azimuth_angle H2 fc fs fa fpi d Ht Hd' na j ltac:(lia) ltac:(lia) Hnd) as ((FA & EA) & (FB & EB)).
    pose proof (azi_range na Hna j Hj) as Rp. unfold azi in Rp. pose proof PI_4.
    destruct dir; cbn [vtx].
    - exists (INR j * (2 * PI / INR na)). split; [exact FA|]. split; [exact EA|]. split; [rewrite Rabs_pos_eq; lra|]. split; reflexivity.
    - exists (INR j * - (2 * PI / INR na)). split; [exact FB|]. split; [exact EB|].
      split; [rewrite Ropp_mult_distr_r_reverse, Rabs_Ropp, Rabs_pos_eq; lra|]. apply (azi_neg na j Hna Hj). }
  destruct K as (ph & FA & EA & Hph & Ec & Es).
  destruct (cos_close fc fs fpi d Ht ang ph _ FA EA) as (F1 & E1); [lra|]. destruct (sin_close fc fs fpi d Ht ang ph _ FA EA) as (F2 & E2); [lra|].
  pose proof (abs_cos_1 ph) as C1. pose proof (abs_sin_1 ph) as S1.
  assert (rr : Rabs (r - r) <= 0) by (unfold Rminus; rewrite Rplus_opp_r, Rabs_R0; lra).
  assert (ra : Rabs r <= r) by (rewrite Rabs_pos_eq; lra).
  assert (drr : d * r <= d * rho) by (apply Rmult_le_compat_l; lra).
  assert (udr : u * (d * r) <= 1 / 900 * (d * rho)).
  { apply Rmult_le_compat; try lra. apply Rmult_le_pos; lra. }
  assert (udrho : u * (d * rho) <= 1 / 900 * (d * rho)) by (apply Rmult_le_compat_r; lra).
  destruct (mul_close (fc ang) rad (cos ph) r (d + 34 * d) 0 1 r (38 * (d * rho)) F1 Frad E1 rr C1 ra) as (Fx & Ex); [lra|lra|].
  destruct (mul_close (fs ang) rad (sin ph) r (d + 34 * d) 0 1 r (38 * (d * rho)) F2 Frad E2 rr S1 ra) as (Fy & Ey); [lra|lra|].
  assert (P : forall c, Rabs c <= 1 -> Rabs (0 + c * r) <= rho).
  { intros c Hc. rewrite Rplus_0_l, Rabs_mult, (Rabs_pos_eq r) by lra. apply Rle_trans with (1 * r); [apply Rmult_le_compat_r; lra|lra]. }
  assert (Z0 : Rabs (B2R zero - 0) <= 0) by (change (B2R zero) with 0; rewrite Rminus_0_r, Rabs_R0; lra).
  pose proof (Hux rho ltac:(lra) ltac:(lra)) as urho.
  destruct (add_close zero (fmul (fc ang) rad) 0 (cos ph * r) 0 _ rho (41 * (d * rho)) eq_refl Fx Z0 Ex (P _ C1)) as (Gx & Dx); [lra|lra|].
  destruct (add_close zero (fmul (fs ang) rad) 0 (sin ph * r) 0 _ rho (41 * (d * rho)) eq_refl Fy Z0 Ey (P _ S1)) as (Gy & Dy); [lra|lra|].
  destruct (add_close z zero Z 0 _ 0 rho (10 * (d * rho) + 3 * kap) Fz eq_refl Hz Z0) as (Gz & Dz).
  { rewrite Rplus_0_r. exact HZ. }
  { pose proof (Hux (3 * kap) ltac:(lra) ltac:(lra)). lra. }
  { lra. }
  split; intros [|[|[|i]]] Hi; try lia.
  - exact Gx.
  - exact Gy.
  - exact Gz.
  - change (Rabs (B2R (fadd zero (fmul (fc ang) rad)) - r * cos (azi na (vtx dir j))) <= eps). rewrite Ec.
    replace (r * cos ph) with (0 + cos ph * r) by ring. lra.
  - change (Rabs (B2R (fadd zero (fmul (fs ang) rad)) - r * sin (azi na (vtx dir j))) <= eps). rewrite Es.
    replace (r * sin ph) with (0 + sin ph * r) by ring. lra.
  - change (Rabs (B2R (fadd z zero) - Z) <= eps). replace Z with (Z + 0) by ring. lra.
Qed.
Lemma axis_close z Z : fin z -> Rabs (B2R z - Z) <= 6 * (d * rho) + 3 * kap -> close_to eps (@mk3 S s0 s0 z : vec bf 3) (0, (0, (Z, tt))).
Proof.
  intros Fz Hz. destruct small_facts as (Hu & Hud & dr & dr' & E16 & Hux & uM & uM').
  assert (Z0 : Rabs (0 - 0) <= eps) by (rewrite Rminus_0_r, Rabs_R0; lra).
  split; intros [|[|[|i]]] Hi; try lia; try reflexivity; try exact Fz; try exact Z0.
  change (Rabs (B2R z - Z) <= eps). lra.
Qed.
Lemma cylindrical_bounded ph Z : Rabs Z <= rho -> bounded (cylindrical (B2R rad) ph Z).
Proof.
  intros HZ. pose proof (abs_cos_1 ph). pose proof (abs_sin_1 ph).
  assert (P : forall c, Rabs c <= 1 -> Rabs (B2R rad * c) <= rho).
  { intros c Hc. rewrite Rabs_mult, (Rabs_pos_eq (B2R rad)) by lra. apply Rle_trans with (B2R rad * 1); [apply Rmult_le_compat_l; lra|lra]. }
  intros [|[|[|i]]] Hi; try lia; [apply P; assumption|apply P; assumption|exact HZ].
Qed.
Lemma axis_bounded Z : Rabs Z <= rho -> bounded (0, (0, (Z, tt))).
Proof. intros HZ. intros [|[|[|i]]] Hi; try lia; cbn; rewrite ?Rabs_R0; try lra. Qed.

(** ** All vertices *)
Context (len : bf) (l : R) (Flen : fin len) (Hl0 : 0 <= l) (Hlr : l <= rho) (Hlen : Rabs (B2R len - l) <= 6 * (d * rho) + 3 * kap).

Definition kbase (v : kvert) : point S :=
  match v with KC => @mk3 S s0 s0 s0 | KP => @mk3 S s0 s0 len | KR j => fcircle CCW zero j end.
Definition ybase (v : yvert) : point S :=
  match v with YB => @mk3 S s0 s0 s0 | YT => @mk3 S s0 s0 len | YRB j => fcircle CCW zero j | YRT j => fcircle CW len (neg na j) end.

Lemma cone_base_map : circle_points (S := S) (@mk3 S s0 s0 s0) rad na CCW ++ [@mk3 S s0 s0 len] = map kbase (kvs na).
Proof. unfold kvs. cbn [map app kbase circle_points]. rewrite map_app, map_map. reflexivity. Qed.
Lemma cylinder_base_map : circle_points (S := S) (@mk3 S s0 s0 s0) rad na CCW ++ circle_points (S := S) (@mk3 S s0 s0 len) rad na CW = map ybase (yvs na).
Proof.
  unfold yvs. rewrite map_app. cbn [map ybase]. unfold circle_points. rewrite !map_map. f_equal. f_equal.
  unfold discretize_circle. apply map_ext_in. intros k Hk. apply in_seq in Hk. cbn [ybase]. rewrite neg_neg by lia. reflexivity.
Qed.

Lemma zero_ok : Rabs (B2R zero - 0) <= 6 * (d * rho) + 3 * kap.
Proof. destruct small_facts as (_ & _ & dr & _). change (B2R zero) with 0. rewrite Rminus_0_r, Rabs_R0. lra. Qed.
Lemma zero_le : Rabs 0 <= rho.
Proof. rewrite Rabs_R0. lra. Qed.
Lemma l_le : Rabs l <= rho.
Proof. rewrite Rabs_pos_eq; assumption. Qed.
Lemma kbase_close v : kv_ok na v -> close_to eps (kbase v : vec bf 3) (kpos na (B2R rad) l v) /\ bounded (kpos na (B2R rad) l v).
Proof.
  intros Hv. destruct v as [| |j]; cbn [kbase kpos kv_ok] in *; split.
  - apply (axis_close zero 0 eq_refl zero_ok).
  - apply axis_bounded, zero_le.
  - apply axis_close; assumption.
  - apply axis_bounded, l_le.
  - apply (fcircle_close CCW zero 0 j Hv eq_refl zero_ok zero_le).
  - apply cylindrical_bounded, zero_le.
Qed.
Lemma ybase_close v : yv_ok na v -> close_to eps (ybase v : vec bf 3) (ypos na (B2R rad) l v) /\ bounded (ypos na (B2R rad) l v).
Proof.
  intros Hv. destruct v as [| |j|j]; cbn [ybase ypos yv_ok] in *; split.
  - apply (axis_close zero 0 eq_refl zero_ok).
  - apply axis_bounded, zero_le.
  - apply axis_close; assumption.
  - apply axis_bounded, l_le.
  - apply (fcircle_close CCW zero 0 j Hv eq_refl zero_ok zero_le).
  - apply cylindrical_bounded, zero_le.
  - pose proof (fcircle_close CW len l (neg na j) (neg_lt na j Hv) Flen Hlen l_le) as K. cbn [vtx] in K. rewrite neg_neg in K by exact Hv. exact K.
  - apply cylindrical_bounded, l_le.
Qed.
End Round.

(** ** The exact vertices *)
Section Grid.
  Context (na : nat) (A : vec (vec R 3) 3) (src tgt : vec R 3) (r : R).
  Context (Hl : 0 < rdist tgt src) (HA : rotation_onto A (rdirection (rsub tgt src))).
  Let s : segment (RS 0) 3 := @mkSegment (RS 0) 3 src tgt.
  Let l0 : hvec (RS 0) := mk4 0 0 0 1.
  Lemma grid_aligned : aligned (fun _ _ => hmat_of A src l0) (fun _ _ => false) s A.
  Proof. split; [unfold s; rewrite direction_R; exact HA|]. exists src, l0. split; [reflexivity|discriminate]. Qed.
  Lemma kgrid q : (q = src \/ q = tgt \/ rim na A src r q) <-> exists v, kv_ok na v /\ q = affine A src (kpos na r (rdist tgt src) v).
  Proof. exact (kworld_grid 0 (fun _ _ => false) (fun _ _ => hmat_of A src l0) s r A na Hl grid_aligned q). Qed.
  Lemma ygrid q : (q = src \/ q = tgt \/ rim na A src r q \/ rim na A tgt r q) <-> exists v, yv_ok na v /\ q = affine A src (ypos na r (rdist tgt src) v).
  Proof. exact (yworld_grid 0 (fun _ _ => false) (fun _ _ => hmat_of A src l0) s r A na Hl grid_aligned q). Qed.
End Grid.

Lemma kvs_nodup na : NoDup (kvs na).
Proof. apply (NoDup_map_inv (kenc na)). rewrite kvs_enum. apply seq_NoDup. Qed.
Lemma yvs_nodup na : NoDup (yvs na).
Proof. apply (NoDup_map_inv (yenc na)). rewrite yvs_enum. apply seq_NoDup. Qed.
Lemma kvs_all na v : kv_ok na v -> In v (kvs na).
Proof.
  unfold kvs. destruct v as [| |j]; cbn [kv_ok]; intros H.
  - left. reflexivity.
  - right. apply in_app_iff. right. left. reflexivity.
  - right. apply in_app_iff. left. apply in_map, in_seq. lia.
Qed.
Lemma yvs_all na v : yv_ok na v -> In v (yvs na).
Proof.
  unfold yvs. rewrite in_app_iff. destruct v as [| |j|j]; cbn [yv_ok]; intros H.
  - left; left. reflexivity.
  - right; left. reflexivity.
  - left; right. apply in_map, in_seq. lia.
  - right; right. apply in_map_iff. exists (neg na j). rewrite neg_neg by exact H. split; [reflexivity|]. pose proof (neg_lt na j H). apply in_seq. lia.
Qed.
