(** * Vertices of round shapes in floating point *)

From Coq Require Import List Bool Arith Lia ZArith Reals Lra Psatz.
From Flocq Require Import Core BinarySingleNaN.
From Verif Require Import Scalar Linal Result SpecReal VecR VecLemmas ModelKdTree SpecKdTree ModelShapes ModelTransform ModelMesh SpecMesh ModelTess SpecTess
  SpecIEEE SpecFloatErr SpecFloatTess ProofTessComb ProofTessConn ProofTessMesh ProofTessSphere ProofRound ProofIEEE ProofFloatErr ProofFloatTrig ProofMeshIEEE.
Import ListNotations.
Local Open Scope R_scope.

(** ** The exact vertices are apart *)
Lemma frac_diff N i j : i <> j -> (i < N + j)%nat -> (j < N + i)%nat ->
  let s := sin ((INR i - INR j) * (PI / INR N)) in 2 / INR N * (2 / INR N) <= s * s.
Proof.
  intros Hne H1 H2 s.
  assert (HN : 0 < INR N) by (apply (lt_INR 0); lia).
  assert (P : 0 <= 2 / INR N) by (apply Rlt_le, Rdiv_lt_0_compat; lra).
  destruct (le_lt_dec i j) as [H|H].
  - assert (E : s = - sin (INR (j - i) * (PI / INR N))).
    { unfold s. rewrite minus_INR by lia. rewrite <- sin_neg. f_equal. ring. }
    pose proof (sin_frac N (j - i) ltac:(lia)) as K. rewrite E.
    replace (- sin (INR (j - i) * (PI / INR N)) * - sin (INR (j - i) * (PI / INR N))) with (sin (INR (j - i) * (PI / INR N)) * sin (INR (j - i) * (PI / INR N))) by ring.
    apply Rmult_le_compat; assumption.
  - assert (E : s = sin (INR (i - j) * (PI / INR N))) by (unfold s; rewrite minus_INR by lia; reflexivity).
    pose proof (sin_frac N (i - j) ltac:(lia)) as K. rewrite E. apply Rmult_le_compat; assumption.
Qed.

Lemma polar_dist2 o r th ph th' ph' :
  let d := rsub (polar o r th ph) (polar o r th' ph') in
  let s := sin ((th - th') / 2) in let w := sin ((ph - ph') / 2) in
  rdot d d = r * r * (4 * (s * s) + sin th * sin th' * (4 * (w * w))).
Proof.
  intros d s w. unfold s, w. rewrite <- !cos_half, !cos_minus. unfold d, polar.
  pose proof (sin2_cos2 th) as K1. pose proof (sin2_cos2 ph) as K2. pose proof (sin2_cos2 th') as K3. pose proof (sin2_cos2 ph') as K4. unfold Rsqr in *.
  destruct o as (x & y & z & []). cbn -[sin cos].
  transitivity (r * r * (sin th * sin th * (sin ph * sin ph + cos ph * cos ph) + cos th * cos th +
    (sin th' * sin th' * (sin ph' * sin ph' + cos ph' * cos ph') + cos th' * cos th') - 2 * (cos th * cos th') -
    2 * (sin th * sin th' * (cos ph * cos ph' + sin ph * sin ph')))); [ring|].
  rewrite K2, K4, !Rmult_1_r, K1, K3. ring.
Qed.

(** a long vector has a long coordinate *)
Lemma long_coordinate (d : vec R 3) s : 0 < s -> 3 * (s * s) <= rdot d d -> exists i, (i < 3)%nat /\ s <= Rabs (vnth 0 i d).
Proof.
  intros Hs H. destruct d as (x & y & z & []).
  destruct (Rle_lt_dec s (Rabs x)) as [A|A]; [exists 0%nat; split; [lia|exact A]|].
  destruct (Rle_lt_dec s (Rabs y)) as [B|B]; [exists 1%nat; split; [lia|exact B]|].
  destruct (Rle_lt_dec s (Rabs z)) as [C|C]; [exists 2%nat; split; [lia|exact C]|].
  exfalso. cbn in H.
  assert (K : forall v, Rabs v < s -> v * v < s * s).
  { intros v Hv. rewrite <- (Rabs_mult_self v). pose proof (Rabs_pos v). apply Rmult_le_0_lt_compat; assumption. }
  pose proof (K x A). pose proof (K y B). pose proof (K z C). lra.
Qed.
Lemma vnth_rsub (x y : vec R 3) i : (i < 3)%nat -> vnth 0 i (rsub x y) = vnth 0 i x - vnth 0 i y.
Proof. intros Hi. destruct x as (? & ? & ? & []), y as (? & ? & ? & []). destruct i as [|[|[|i]]]; [reflexivity..|lia]. Qed.

Section Apart.
  Context (np na : nat) (Hnp : (2 <= np)%nat) (Hna : (3 <= na)%nat) (o : vec R 3) (r : R) (Hr : 0 < r).
  Notation sp := (spos np na o r).
  (** the indices of the polar angle and the azimuth *)
  Let it (v : svert) : nat := match v with Top => 0 | Bot => np | Ring i _ => i + 1 end.
  Let jt (v : svert) : nat := match v with Ring _ j => j | _ => 0 end.
  Lemma spos_polar v : sp v = polar o r (INR (it v) * (PI / INR np)) (INR (jt v) * (2 * PI / INR na)).
  Proof.
    destruct v as [| |i j]; cbn [spos it jt].
    - cbn [INR]. rewrite !Rmult_0_l. reflexivity.
    - rewrite (pol_full np Hnp). cbn [INR]. rewrite Rmult_0_l. reflexivity.
    - reflexivity.
  Qed.
  Lemma it_range v : sv_ok np na v -> (it v <= np)%nat /\ (jt v < na)%nat.
  Proof. destruct v; cbn; lia. Qed.
  Lemma sin_it v : sv_ok np na v -> 0 <= sin (INR (it v) * (PI / INR np)).
  Proof.
    intros Hv. destruct (it_range v Hv) as (H & _). pose proof PI_RGT_0. pose proof (INR_p np Hnp). pose proof (pol_step np Hnp).
    apply le_INR in H. pose proof (pos_INR (it v)). apply sin_ge_0; [nra|]. rewrite <- (pol_full np Hnp) at 2. apply Rmult_le_compat_r; lra.
  Qed.
  Lemma spos_apart v w : sv_ok np na v -> sv_ok np na w -> v <> w ->
    exists i, (i < 3)%nat /\ 3 * r / (INR np * INR na) <= Rabs (vnth 0 i (sp v) - vnth 0 i (sp w)).
  Proof.
    intros Hv Hw Hne. pose proof (INR_p np Hnp) as P. pose proof (INR_a na Hna) as A.
    assert (Hs : 0 < 3 * r / (INR np * INR na)) by (apply Rdiv_lt_0_compat; nra).
    destruct (long_coordinate (rsub (sp v) (sp w)) _ Hs) as (i & Hi & K).
    2: { exists i. split; [exact Hi|]. rewrite <- vnth_rsub by exact Hi. exact K. }
    rewrite (spos_polar v), (spos_polar w), polar_dist2.
    destruct (it_range v Hv) as (I1 & J1). destruct (it_range w Hw) as (I2 & J2).
    set (ip := / INR np). set (ia := / INR na).
    assert (ip0 : 0 < ip) by (apply Rinv_0_lt_compat; lra). assert (ia0 : 0 < ia) by (apply Rinv_0_lt_compat; lra).
    assert (ia1 : ia <= 1 / 3) by (unfold ia; replace (1 / 3) with (/ 3) by field; apply Rinv_le_contravar; lra).
    replace (3 * r / (INR np * INR na)) with (3 * (r * (ip * ia))) by (unfold ip, ia; field; lra).
    replace (3 * (3 * (r * (ip * ia)) * (3 * (r * (ip * ia))))) with (r * r * (27 * ((ip * ip) * (ia * ia)))) by ring.
    apply Rmult_le_compat_l; [nra|].
    assert (IP : 0 < ip * ip) by (apply Rmult_lt_0_compat; assumption). assert (IA : 0 < ia * ia) by (apply Rmult_lt_0_compat; assumption).
    assert (IA9 : ia * ia <= 1 / 9) by (replace (1 / 9) with (1 / 3 * (1 / 3)) by field; apply Rmult_le_compat; lra).
    pose proof (sin_it v Hv) as S1. pose proof (sin_it w Hw) as S2.
    set (s := sin ((INR (it v) * (PI / INR np) - INR (it w) * (PI / INR np)) / 2)).
    set (y := sin ((INR (jt v) * (2 * PI / INR na) - INR (jt w) * (2 * PI / INR na)) / 2)).
    assert (Es : s = sin ((INR (it v) - INR (it w)) * (PI / INR (2 * np)))).
    { unfold s. f_equal. rewrite mult_INR. cbn [INR]. field. lra. }
    assert (Ey : y = sin ((INR (jt v) - INR (jt w)) * (PI / INR na))) by (unfold y; f_equal; field; lra).
    assert (y0 : 0 <= y * y) by (apply Rle_0_sqr). assert (s0 : 0 <= s * s) by (apply Rle_0_sqr).
    destruct (Nat.eq_dec (it v) (it w)) as [Ei|Ni].
    - assert (Hj : jt v <> jt w /\ (0 < it v < np)%nat).
      { destruct v as [| |i j], w as [| |i' j']; cbn in *; try (exfalso; apply Hne; reflexivity); try lia.
        assert (i = i') by lia. subst i'. split; [|lia]. intros ->. apply Hne. reflexivity. }
      destruct Hj as (Hj & Hi). pose proof (frac_diff na (jt v) (jt w) Hj ltac:(lia) ltac:(lia)) as F. cbn zeta in F. rewrite <- Ey in F.
      pose proof (sin_frac np (it v) Hi) as G. rewrite Ei in *.
      set (g := sin (INR (it w) * (PI / INR np))) in *. unfold Rdiv in F, G. fold ip in G. fold ia in F.
      assert (GG : 2 * ip * (2 * ip) <= g * g) by (apply Rmult_le_compat; lra).
      assert (FG : (2 * ip * (2 * ip)) * (2 * ia * (2 * ia)) <= (g * g) * (y * y)).
      { apply Rmult_le_compat; try assumption; [apply Rmult_le_pos; lra|apply Rmult_le_pos; lra]. }
      assert (0 < ip * ip * (ia * ia)) by (apply Rmult_lt_0_compat; assumption). lra.
    - pose proof (frac_diff (2 * np) (it v) (it w) Ni ltac:(lia) ltac:(lia)) as F. cbn zeta in F. rewrite <- Es in F.
      assert (E2 : 2 / INR (2 * np) = ip) by (rewrite mult_INR; cbn [INR]; unfold ip; field; lra). rewrite E2 in F.
      assert (G : 0 <= sin (INR (it v) * (PI / INR np)) * sin (INR (it w) * (PI / INR np)) * (4 * (y * y))).
      { apply Rmult_le_pos; [apply Rmult_le_pos; assumption|lra]. }
      assert (ip * ip * (ia * ia) <= ip * ip * (1 / 9)) by (apply Rmult_le_compat_l; lra). lra.
  Qed.
End Apart.

(** ** Computed angles *)
Section Angles.
Context {p e : Z} {Hp : Prec_gt_0 p} {He : Prec_lt_emax p e} (H2 : (2 < p)%Z).
Notation bf := (binary_float p e).
Notation fadd := (@Bplus p e Hp He mode_NE).
Notation fmul := (@Bmult p e Hp He mode_NE).
Notation fdiv := (@Bdiv p e Hp He mode_NE).
Notation u := (uround p).
Notation eta := (@eta p e).
Notation fnat i := (ieee_pow p e Hp He (Z.of_nat i) 0).
Context (fc fs fa : bf -> bf) (fpi : bf).
Let S := IEEE p e Hp He fc fs fa fpi.
Context (d : R) (Ht : trig_accurate d fc fs fpi) (Hd : d <= 1 / 384).

Lemma d_pos : 0 < d.
Proof. pose proof (@u_pos p). pose proof (ta_round _ _ _ _ Ht). lra. Qed.
Lemma PI_abs : Rabs PI <= 4.
Proof. pose proof PI_RGT_0. rewrite Rabs_pos_eq; [apply PI_4|lra]. Qed.
Lemma eta_u : eta <= u / 4.
Proof.
  pose proof (@emax_pos p e Hp He) as (P1 & P2). unfold ProofFloatErr.eta, uround.
  replace (bpow radix2 (- p) / 4) with (bpow radix2 (- p + -2)) by (rewrite bpow_plus; cbn; field). apply bpow_le. lia.
Qed.
Lemma pow_e : 16 <= bpow radix2 e.
Proof. pose proof (@emax_pos p e Hp He) as (P1 & P2). change 16 with (bpow radix2 4). apply bpow_le. lia. Qed.

Lemma two_spec : fin (@sadd S s1 s1) /\ B2R (@sadd S s1 s1) = 2.
Proof.
  destruct (@one_spec p e Hp He) as (F1 & E1).
  assert (E : rndf p e (1 + 1) = 2).
  { replace (1 + 1) with (bpow radix2 1) by (cbn; ring). rewrite (rnd_id (p := p) (e := e)); [reflexivity|].
    pose proof (@emax_pos p e Hp He). apply (@fmt_pow p e Hp He). lia. }
  destruct (@add_ok p e Hp He (ieee_pow p e Hp He 1 0) (ieee_pow p e Hp He 1 0) F1 F1) as (F & E').
  - rewrite E1, E. pose proof pow_e. rewrite Rabs_pos_eq; lra.
  - split; [exact F|]. change (B2R (fadd (ieee_pow p e Hp He 1 0) (ieee_pow p e Hp He 1 0)) = 2). rewrite E', E1. exact E.
Qed.

(** multiples of the polar step *)
Lemma polar_angle np i : (0 < np)%nat -> (i <= np)%nat -> INR np * d <= 1 / 64 ->
  let a := @smul S (sofnat i) (sdiv spi (sofnat np)) in
  fin a /\ Rabs (B2R a - INR i * (PI / INR np)) <= 13 * d.
Proof.
  intros Hn Hi Hs a. pose proof (@u_pos p) as Hu. pose proof (ta_round _ _ _ _ Ht) as Hud. pose proof d_pos as Hd0.
  destruct (ta_pi _ _ _ _ Ht) as (Fp & Ep).
  assert (dd : d * d <= d / 384) by nra. assert (ud : u * d <= d * d) by nra.
  assert (uu : u * u <= d * d) by nra. assert (uud : u * (u * d) <= d * d) by nra.
  refine (proj1 (fraction_close fpi PI (4 * d) 4 d np i (13 * d) _ _ _ _ _ _ _ _ _ _)); try assumption; try apply PI_abs; lra.
Qed.
(** multiples of the azimuth step *)
Lemma azimuth_angle na j : (0 < na)%nat -> (j <= na)%nat -> INR na * d <= 1 / 64 ->
  let a := @smul S (sofnat j) (sdiv (smul (sadd s1 s1) spi) (sofnat na)) in
  let b := @smul S (sofnat j) (sopp (sdiv (smul (sadd s1 s1) spi) (sofnat na))) in
  (fin a /\ Rabs (B2R a - INR j * (2 * PI / INR na)) <= 34 * d) /\ (fin b /\ Rabs (B2R b - INR j * - (2 * PI / INR na)) <= 34 * d).
Proof.
  intros Hn Hi Hs a b. pose proof (@u_pos p) as Hu. pose proof (ta_round _ _ _ _ Ht) as Hud. pose proof d_pos as Hd0.
  destruct (ta_pi _ _ _ _ Ht) as (Fp & Ep). destruct two_spec as (F2 & E2). pose proof eta_u as He0. pose proof pow_e as Hpe.
  assert (dd : d * d <= d / 384) by nra. assert (ud : u * d <= d * d) by nra.
  assert (uu : u * u <= d * d) by nra. assert (uud : u * (u * d) <= d * d) by nra.
  destruct (mul_close (@sadd S s1 s1) fpi 2 PI 0 (4 * d) 2 4 (17 * d)) as (F & E); try assumption.
  - rewrite E2. unfold Rminus. rewrite Rplus_opp_r, Rabs_R0. lra.
  - rewrite Rabs_pos_eq; lra.
  - apply PI_abs.
  - lra.
  - lra.
  - apply (fraction_close (@smul S (sadd s1 s1) spi) (2 * PI) (17 * d) 8 d na j (34 * d)); try assumption; try lra.
    rewrite Rabs_mult, (Rabs_pos_eq 2) by lra. pose proof PI_abs. lra.
Qed.

(** cosine and sine of a computed angle *)
Lemma cos_close x th c : fin x -> Rabs (B2R x - th) <= c -> Rabs th + c <= 16 -> fin (fc x) /\ Rabs (B2R (fc x) - cos th) <= d + c.
Proof.
  intros F H R. assert (Hx : Rabs (B2R x) <= 16).
  { replace (B2R x) with (th + (B2R x - th)) by ring. eapply Rle_trans; [apply Rabs_triang|]. lra. }
  destruct (ta_cos _ _ _ _ Ht x F Hx) as (F' & E). split; [exact F'|].
  replace (B2R (fc x) - cos th) with ((B2R (fc x) - cos (B2R x)) + (cos (B2R x) - cos th)) by ring.
  eapply Rle_trans; [apply Rabs_triang|]. pose proof (cos_lip (B2R x) th). lra.
Qed.
Lemma sin_close x th c : fin x -> Rabs (B2R x - th) <= c -> Rabs th + c <= 16 -> fin (fs x) /\ Rabs (B2R (fs x) - sin th) <= d + c.
Proof.
  intros F H R. assert (Hx : Rabs (B2R x) <= 16).
  { replace (B2R x) with (th + (B2R x - th)) by ring. eapply Rle_trans; [apply Rabs_triang|]. lra. }
  destruct (ta_sin _ _ _ _ Ht x F Hx) as (F' & E). split; [exact F'|].
  replace (B2R (fs x) - sin th) with ((B2R (fs x) - sin (B2R x)) + (sin (B2R x) - sin th)) by ring.
  eapply Rle_trans; [apply Rabs_triang|]. pose proof (sin_lip (B2R x) th). lra.
Qed.

(** ** Computed vertices of the sphere *)
Section Sphere.
Context (L : Linal S) (np na : nat) (s : sphere S) (t M : R).
Context (Hnp : (2 <= np)%nat) (Hna : (3 <= na)%nat).
Let r := B2R (s_radius s : bf).
Let o : vec R 3 := vreal (s_origin s : vec bf 3).
Context (Fr : fin (s_radius s : bf)) (Hr : 0 < r) (Hre : r <= bpow radix2 (e - 2)) (Her : eta <= d * r).
Context (Fo : finite_pt (s_origin s : vec bf 3)) (HoM : forall i, (i < 3)%nat -> Rabs (fval i (s_origin s : vec bf 3)) <= M) (HM : M <= bpow radix2 (e - 2)).
Context (HL : equal_within L t) (Hnd : INR np * d <= 1 / 64) (Hnd' : INR na * d <= 1 / 64).

(** the point before the origin is added *)
Definition fbase (v : svert) : point S :=
  match v with
  | Top => mk3 s0 s0 (s_radius s)
  | Bot => mk3 s0 s0 (sopp (s_radius s))
  | Ring i j =>
      let polarAngle := smul (sofnat (i + 1)) (sdiv spi (sofnat np)) in
      let azimuthAngle := smul (sofnat j) (sdiv (smul (sadd s1 s1) spi) (sofnat na)) in
      let projRadius := smul (s_radius s) (ssin polarAngle) in
      mk3 (smul projRadius (scos azimuthAngle)) (smul projRadius (ssin azimuthAngle)) (smul (s_radius s) (scos polarAngle))
  end.
Definition fpos (v : svert) : point S :=
  if negb (veq L (s_origin s) (mk3 s0 s0 s0)) then vadd (fbase v) (s_origin s) else fbase v.
Lemma sphere_points_map : sphere_points L np na s = map fpos (svs np na).
Proof.
  unfold sphere_points, svs, fpos. cbv zeta.
  set (pts := flat_map _ _ ++ _).
  assert (E : pts = map fbase (flat_map (fun i => map (Ring i) (seq 0 na)) (seq 0 (np - 1)) ++ [Top; Bot])).
  { unfold pts. rewrite !map_app, !map_flat_map. f_equal.
    rewrite (seq_from 1 (np - 1)), flat_map_map. apply flat_map_ext_in. intros i _. rewrite !map_map.
    apply map_ext. intros j. cbn [fbase]. replace (i + 1)%nat with (1 + i)%nat by lia. reflexivity. }
  rewrite E. destruct (negb _); [rewrite map_map|]; reflexivity.
Qed.

(** the exact counterpart of [fbase] *)
Let rbase (v : svert) : vec R 3 := spos np na rzero r v.
Lemma spos_base v : spos np na o r v = radd o (rbase v).
Proof.
  unfold rbase. destruct v; cbn [spos]; unfold polar; destruct o as (? & ? & ? & []); cbn; repeat (apply f_equal2; [ring|]); reflexivity.
Qed.
Lemma rbase_le v i : (i < 3)%nat -> Rabs (vnth 0 i (rbase v)) <= r.
Proof.
  intros Hi. unfold rbase.
  assert (K : forall th ph, Rabs (vnth 0 i (polar rzero r th ph)) <= r).
  { intros th ph. unfold polar. pose proof (abs_sin_1 th). pose proof (abs_cos_1 th). pose proof (abs_sin_1 ph). pose proof (abs_cos_1 ph).
    pose proof (Rabs_pos (sin th)). pose proof (Rabs_pos (sin ph)). pose proof (Rabs_pos (cos ph)).
    assert (Rabs (sin th) * Rabs (sin ph) <= 1 * 1) by (apply Rmult_le_compat; lra).
    assert (Rabs (sin th) * Rabs (cos ph) <= 1 * 1) by (apply Rmult_le_compat; lra).
    destruct i as [|[|[|i]]]; [| | |lia]; cbn -[sin cos]; rewrite Rplus_0_l, Rabs_mult, (Rabs_pos_eq r), ?Rabs_mult by lra;
      rewrite <- (Rmult_1_r r) at 2; apply Rmult_le_compat_l; lra. }
  destruct v; apply K.
Qed.

Lemma fbase_close v : sv_ok np na v -> close_to (57 * (d * r)) (fbase v : vec bf 3) (rbase v).
Proof.
  pose proof d_pos as Hd0. pose proof (@u_pos p) as Hu. pose proof (ta_round _ _ _ _ Ht) as Hud. pose proof pow_e as Hpe.
  assert (dr : 0 < d * r) by (apply Rmult_lt_0_compat; assumption).
  assert (dr' : d * r <= r / 384) by nra.
  assert (Hr4 : 4 * r <= bpow radix2 e).
  { replace (bpow radix2 e) with (4 * bpow radix2 (e - 2)); [lra|]. change 4 with (bpow radix2 2). rewrite <- bpow_plus. f_equal. lia. }
  assert (Z : Rabs (0 - 0) <= 57 * (d * r)) by (rewrite Rminus_0_r, Rabs_R0; lra).
  intros Hv. destruct v as [| |i j].
  - split; intros [|[|[|k]]] Hk; try lia; try reflexivity; unfold rbase.
    + exact Fr.
    + cbn -[sin cos PI]. rewrite sin_0. match goal with |- Rabs (0 - ?x) <= _ => replace x with 0 by ring end. exact Z.
    + cbn -[sin cos PI]. rewrite sin_0. match goal with |- Rabs (0 - ?x) <= _ => replace x with 0 by ring end. exact Z.
    + unfold fval. cbn -[sin cos PI]. rewrite cos_0. fold r. match goal with |- Rabs ?x <= _ => replace x with (0 - 0) by ring end. exact Z.
  - split; intros [|[|[|k]]] Hk; try lia; try reflexivity; unfold rbase.
    + cbn. rewrite is_finite_Bopp. exact Fr.
    + cbn -[sin cos PI]. rewrite sin_PI. match goal with |- Rabs (0 - ?x) <= _ => replace x with 0 by ring end. exact Z.
    + cbn -[sin cos PI]. rewrite sin_PI. match goal with |- Rabs (0 - ?x) <= _ => replace x with 0 by ring end. exact Z.
    + unfold fval. cbn -[sin cos PI]. rewrite B2R_Bopp, cos_PI. fold r. match goal with |- Rabs ?x <= _ => replace x with (0 - 0) by ring end. exact Z.
  - destruct Hv as (Hi & Hj).
    destruct (polar_angle np (i + 1) ltac:(lia) ltac:(lia) Hnd) as (FA & EA).
    destruct (azimuth_angle na j ltac:(lia) ltac:(lia) Hnd') as ((FB & EB) & _).
    set (A := @smul S (sofnat (i + 1)) (sdiv spi (sofnat np))) in *.
    set (B := @smul S (sofnat j) (sdiv (smul (sadd s1 s1) spi) (sofnat na))) in *.
    set (th := INR (i + 1) * (PI / INR np)) in *. set (ph := INR j * (2 * PI / INR na)) in *.
    pose proof (pol_range np Hnp (i + 1) ltac:(lia)) as Rt. change (0 < th < PI) in Rt.
    pose proof (azi_range na Hna j Hj) as Rp. change (0 <= ph < 2 * PI) in Rp. pose proof PI_4 as P4.
    assert (Bt : Rabs th + 13 * d <= 16) by (rewrite Rabs_pos_eq; lra).
    assert (Bp : Rabs ph + 34 * d <= 16) by (rewrite Rabs_pos_eq; lra).
    destruct (cos_close A th _ FA EA Bt) as (F1 & E1). destruct (sin_close A th _ FA EA Bt) as (F2 & E2).
    destruct (cos_close B ph _ FB EB Bp) as (F3 & E3). destruct (sin_close B ph _ FB EB Bp) as (F4 & E4).
    pose proof (abs_sin_1 th) as B1. pose proof (abs_cos_1 th) as B2. pose proof (abs_sin_1 ph) as B3. pose proof (abs_cos_1 ph) as B4.
    assert (rr : Rabs (r - r) <= 0) by (unfold Rminus; rewrite Rplus_opp_r, Rabs_R0; lra).
    assert (ra : Rabs r <= r) by (rewrite Rabs_pos_eq; lra).
    assert (ur : u * r <= d * r) by (apply Rmult_le_compat_r; lra).
    assert (udr : u * (d * r) <= d * r / 384) by nra.
    assert (ddr : d * (d * r) <= d * r / 384) by nra.
    assert (uddr : u * (d * (d * r)) <= d * r / 384 / 384).
    { apply Rle_trans with (u * (d * r / 384)); [apply Rmult_le_compat_l; lra|]. lra. }
    destruct (mul_close (s_radius s) (fc A) r (cos th) 0 (d + 13 * d) r 1 (17 * (d * r)) Fr F1 rr E1 ra B2) as (Fz & Ez); [lra|lra|].
    destruct (mul_close (s_radius s) (fs A) r (sin th) 0 (d + 13 * d) r 1 (17 * (d * r)) Fr F2 rr E2 ra B1) as (Fq & Eq); [lra|lra|].
    assert (rs : Rabs (r * sin th) <= r).
    { rewrite Rabs_mult, (Rabs_pos_eq r) by lra. rewrite <- (Rmult_1_r r) at 2. apply Rmult_le_compat_l; lra. }
    destruct (mul_close (fmul (s_radius s) (fs A)) (fc B) (r * sin th) (cos ph) (17 * (d * r)) (d + 34 * d) r 1 (57 * (d * r)) Fq F3 Eq E3 rs B4) as (Fx & Ex); [lra|lra|].
    destruct (mul_close (fmul (s_radius s) (fs A)) (fs B) (r * sin th) (sin ph) (17 * (d * r)) (d + 34 * d) r 1 (57 * (d * r)) Fq F4 Eq E4 rs B3) as (Fy & Ey); [lra|lra|].
    split; intros [|[|[|k]]] Hk; try lia.
    + exact Fx.
    + exact Fy.
    + exact Fz.
    + unfold rbase. cbn -[sin cos PI INR]. rewrite Rplus_0_l, <- Rmult_assoc. exact Ex.
    + unfold rbase. cbn -[sin cos PI INR]. rewrite Rplus_0_l, <- Rmult_assoc. exact Ey.
    + unfold rbase. cbn -[sin cos PI INR]. rewrite Rplus_0_l. eapply Rle_trans; [exact Ez|]. lra.
Qed.

Lemma fpos_close v : sv_ok np na v -> close_to (64 * (d * r) + u * M + t) (fpos v : vec bf 3) (spos np na o r v).
Proof.
  intros Hv. destruct (fbase_close v Hv) as (F & E). pose proof (ew_slack _ _ HL) as t0.
  pose proof d_pos as Hd0. pose proof (@u_pos p) as Hu. pose proof (ta_round _ _ _ _ Ht) as Hud. pose proof pow_e as Hpe.
  assert (dr : 0 < d * r) by (apply Rmult_lt_0_compat; assumption).
  assert (dr' : d * r <= r / 384) by nra.
  assert (E4 : bpow radix2 e = 4 * bpow radix2 (e - 2)).
  { change 4 with (bpow radix2 2). rewrite <- bpow_plus. f_equal. lia. }
  assert (M0 : 0 <= M) by (eapply Rle_trans; [apply Rabs_pos|apply (HoM 0%nat); lia]).
  assert (uM : 0 <= u * M) by (apply Rmult_le_pos; lra).
  assert (uM' : u * M <= 1 / 384 * M) by (apply Rmult_le_compat_r; lra).
  assert (ur : u * r <= d * r) by (apply Rmult_le_compat_r; lra).
  assert (udr : u * (d * r) <= d * r / 384) by nra.
  assert (Vo : forall i, (i < 3)%nat -> vnth 0 i (spos np na o r v) = vnth 0 i (rbase v) + fval i (s_origin s : vec bf 3)).
  { intros i Hi. rewrite spos_base. unfold o, vreal, fval. destruct (s_origin s) as (x & y & z & []), (rbase v) as (x' & y' & z' & []).
    destruct i as [|[|[|i]]]; [| | |lia]; cbn; ring. }
  unfold fpos. destruct (veq L _ _) eqn:Ev; cbn [negb].
  - assert (Fz : finite_pt (@mk3 S s0 s0 s0 : vec bf 3)) by (intros [|[|[|i]]] Hi; [reflexivity..|lia]).
    pose proof (ew_close _ _ HL 3 (s_origin s) (@mk3 S s0 s0 s0) Fo Fz Ev) as Hz.
    split; [exact F|]. intros i Hi. rewrite (Vo i Hi). specialize (E i Hi). specialize (Hz i Hi).
    assert (Z0 : fval i (@mk3 S s0 s0 s0 : vec bf 3) = 0) by (destruct i as [|[|[|i]]]; [reflexivity..|lia]).
    rewrite Z0, Rminus_0_r in Hz.
    replace (fval i (fbase v : vec bf 3) - (vnth 0 i (rbase v) + fval i (s_origin s : vec bf 3)))
      with ((fval i (fbase v : vec bf 3) - vnth 0 i (rbase v)) + - fval i (s_origin s : vec bf 3)) by ring.
    eapply Rle_trans; [apply Rabs_triang|]. rewrite Rabs_Ropp. lra.
  - assert (K : forall i, (i < 3)%nat -> fin (vnth (@s0 S) i (vadd (fbase v) (s_origin s)) : bf) /\
        Rabs (fval i (vadd (fbase v) (s_origin s) : vec bf 3) - vnth 0 i (spos np na o r v)) <= 64 * (d * r) + u * M + t).
    { intros i Hi. rewrite (Vo i Hi). pose proof (rbase_le v i Hi) as Hb.
      destruct (add_close (vnth (B754_zero false) i (fbase v : vec bf 3)) (vnth (B754_zero false) i (s_origin s : vec bf 3)) (vnth 0 i (rbase v)) (fval i (s_origin s : vec bf 3))
        (57 * (d * r)) 0 (r + M) (64 * (d * r) + u * M)) as (F' & E').
      - exact (F i Hi).
      - exact (Fo i Hi).
      - exact (E i Hi).
      - unfold fval, Rminus. rewrite Rplus_opp_r, Rabs_R0. lra.
      - eapply Rle_trans; [apply Rabs_triang|]. specialize (HoM i Hi). lra.
      - lra.
      - lra.
      - assert (Ei : vnth (@s0 S) i (vadd (fbase v) (s_origin s)) = fadd (vnth (B754_zero false) i (fbase v : vec bf 3)) (vnth (B754_zero false) i (s_origin s : vec bf 3))).
        { unfold vadd. rewrite (vnth_vmap2 (@s0 S) (@s0 S)) by exact Hi. reflexivity. }
        unfold fval at 1. split; [rewrite Ei; exact F'|]. refine (Rle_trans _ _ _ (Req_le _ _ _) (Rle_trans _ _ _ E' _)); [|lra]. f_equal. f_equal. exact (f_equal B2R Ei). }
    split; intros i Hi; apply (K i Hi).
Qed.
End Sphere.
End Angles.

(** ** Points close to positions that are apart *)
Section Separated.
Context {p e : Z} {Hp : Prec_gt_0 p} {He : Prec_lt_emax p e}.
Notation bf := (binary_float p e).
Context (fc fs fa : bf -> bf) (fpi : bf).
Let S := IEEE p e Hp He fc fs fa fpi.
Context (L : Linal S) (t : R) (HL : equal_within L t) (k : Z) (Hk : (3 - e - p <= 2 * k)%Z).
Context {V : Type} (Vdec : forall v w : V, {v = w} + {v <> w}) (vs : list V) (fp : V -> point S) (rp : V -> vec R 3) (c : R).
Context (Hc : forall v, In v vs -> close_to c (fp v : vec bf 3) (rp v)).
Context (Ha : forall v w, In v vs -> In w vs -> v <> w ->
  exists i, (i < 3)%nat /\ 2 * c + t + bpow radix2 k <= Rabs (vnth 0 i (rp v) - vnth 0 i (rp w))).

Lemma close_apart (x y : vec bf 3) (q q' : vec R 3) i b : (i < 3)%nat -> close_to c x q -> close_to c y q' ->
  2 * c + b <= Rabs (vnth 0 i q - vnth 0 i q') -> b <= Rabs (fval i x - fval i y).
Proof.
  intros Hi (_ & Hx) (_ & Hy) H. specialize (Hx i Hi). specialize (Hy i Hi).
  assert (E : vnth 0 i q - vnth 0 i q' = - (fval i x - vnth 0 i q) + ((fval i x - fval i y) + (fval i y - vnth 0 i q'))) by ring.
  assert (K : Rabs (vnth 0 i q - vnth 0 i q') <= Rabs (fval i x - vnth 0 i q) + (Rabs (fval i x - fval i y) + Rabs (fval i y - vnth 0 i q'))).
  { rewrite E. eapply Rle_trans; [apply Rabs_triang|]. rewrite Rabs_Ropp. apply Rplus_le_compat_l. apply Rabs_triang. }
  lra.
Qed.
Lemma fp_apart v w : In v vs -> In w vs -> v <> w -> exists i, (i < 3)%nat /\ t + bpow radix2 k <= Rabs (fval i (fp v : vec bf 3) - fval i (fp w : vec bf 3)).
Proof.
  intros Hv Hw Hne. destruct (Ha v w Hv Hw Hne) as (i & Hi & H). exists i. split; [exact Hi|].
  apply (close_apart _ _ (rp v) (rp w) i _ Hi (Hc v Hv) (Hc w Hw)). lra.
Qed.
Lemma fp_inj v w : In v vs -> In w vs -> fp v = fp w -> v = w.
Proof.
  intros Hv Hw E. destruct (Vdec v w) as [H|H]; [exact H|exfalso]. destruct (fp_apart v w Hv Hw H) as (i & _ & K). rewrite E in K.
  unfold Rminus in K. rewrite Rplus_opp_r, Rabs_R0 in K. pose proof (bpow_gt_0 radix2 k). pose proof (ew_slack _ _ HL). lra.
Qed.
Lemma fp_nodup : NoDup vs -> NoDup (map fp vs).
Proof.
  intros H. assert (K : forall l, incl l vs -> NoDup l -> NoDup (map fp l)).
  { induction l as [|x l IH]; intros Hl Hn; [constructor|]. cbn. apply NoDup_cons_iff in Hn as (H1 & H3). constructor.
    - intros Hx. apply in_map_iff in Hx as (y & E & Hy). apply H1. rewrite <- (fp_inj y x); [exact Hy|apply Hl; right; exact Hy|apply Hl; left; reflexivity|exact E].
    - apply IH; [|exact H3]. intros y Hy. apply Hl. right. exact Hy. }
  apply K; [apply incl_refl|exact H].
Qed.
Lemma fp_separated : well_separated k (fun x : vec bf 3 => In x (map fp vs)).
Proof.
  split; [exact Hk|]. split.
  - intros x Hx. apply in_map_iff in Hx as (v & <- & Hv). apply (Hc v Hv).
  - intros x y Hx Hy. apply in_map_iff in Hx as (v & <- & Hv). apply in_map_iff in Hy as (w & <- & Hw).
    destruct (Vdec v w) as [->|H]; [left; reflexivity|right]. destruct (fp_apart v w Hv Hw H) as (i & Hi & K). exists i. split; [exact Hi|].
    pose proof (ew_slack _ _ HL). lra.
Qed.
Lemma fp_veq : veq_on L (fun x => In x (map fp vs)).
Proof.
  intros x y Hx Hy. apply in_map_iff in Hx as (v & <- & Hv). apply in_map_iff in Hy as (w & <- & Hw). split.
  - intros E. destruct (Vdec v w) as [->|H]; [reflexivity|exfalso]. destruct (fp_apart v w Hv Hw H) as (i & Hi & K).
    pose proof (ew_close _ _ HL 3 (fp v) (fp w) (proj1 (Hc v Hv)) (proj1 (Hc w Hw)) E i Hi). pose proof (bpow_gt_0 radix2 k). lra.
  - intros E. rewrite E. apply (ew_refl _ _ HL 3). apply (Hc w Hw).
Qed.
Lemma fp_unique v x : In v vs -> In x (map fp vs) -> close_to c (x : vec bf 3) (rp v) -> x = fp v.
Proof.
  intros Hv Hx H. apply in_map_iff in Hx as (w & <- & Hw). destruct (Vdec w v) as [->|Hne]; [reflexivity|exfalso].
  destruct (Ha w v Hw Hv Hne) as (i & Hi & K). destruct (Hc w Hw) as (_ & A). destruct H as (_ & B). specialize (A i Hi). specialize (B i Hi).
  assert (E : vnth 0 i (rp w) - vnth 0 i (rp v) = - (fval i (fp w : vec bf 3) - vnth 0 i (rp w)) + (fval i (fp w : vec bf 3) - vnth 0 i (rp v))) by ring.
  rewrite E in K. assert (K' := Rle_trans _ _ _ K (Rabs_triang _ _)). rewrite Rabs_Ropp in K'.
  pose proof (bpow_gt_0 radix2 k). pose proof (ew_slack _ _ HL). lra.
Qed.
End Separated.

Lemma svs_nodup np na : NoDup (svs np na).
Proof. apply (NoDup_map_inv (senc np na)). rewrite svs_enum. apply seq_NoDup. Qed.
Lemma svert_dec (v w : svert) : {v = w} + {v <> w}.
Proof. decide equality; apply Nat.eq_dec. Qed.
Lemma svs_all np na v : sv_ok np na v -> In v (svs np na).
Proof.
  unfold svs. intros H. apply in_app_iff. destruct v as [| |i j]; [right; left; reflexivity|right; right; left; reflexivity|left].
  apply in_flat_map. cbn in H. exists i. split; [apply in_seq; lia|]. apply in_map. apply in_seq. lia.
Qed.
