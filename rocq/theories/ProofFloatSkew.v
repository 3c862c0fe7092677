(** * The closest points of two lines in space in floating point *)

From Coq Require Import List Bool Arith Lia ZArith Reals Lra Psatz.
From Flocq Require Import Core BinarySingleNaN.
From Verif Require Import Scalar Linal Result SpecReal VecR VecLemmas ModelShapes ModelDistance ModelIntersect
  SpecIEEE SpecFloatErr SpecFloatPlane SpecFloatSkew ProofDistance
  ProofRound ProofIEEE ProofFloatErr ProofFloatNorm ProofFloatDist ProofFloatTransform ProofFloatPlane ProofFloatSphere.
Local Open Scope R_scope.

(** ** Errors in units *)
Section CQ.
Variables (u : R).
Hypothesis Hu : 0 < u <= 1 / 1024.

Lemma cq_prod x y X Y m : Rabs (x - X) <= 10 * u -> Rabs X <= 1 -> Rabs (y - Y) <= 10 * u -> Rabs Y <= 1 ->
  Rabs (m - x * y) <= u * Rabs (x * y) + u -> Rabs (m - X * Y) <= 222 / 10 * u /\ Rabs m <= 1022 / 1000.
Proof.
  intros Hx HX Hy HY Hm. assert (uu : u * u <= 1 / 1024 * u) by (apply Rmult_le_compat_r; lra).
  assert (Q : Rabs (x * y - X * Y) <= 201 / 10 * u).
  { replace (x * y - X * Y) with ((x - X) * (y - Y) + ((x - X) * Y + X * (y - Y))) by ring.
    pose proof (prod_bound _ _ _ _ Hx Hy) as Q1. pose proof (prod_bound _ _ _ _ Hx HY) as Q2. pose proof (prod_bound _ _ _ _ HX Hy) as Q3.
    apply Rabs_le_inv in Q1, Q2, Q3. apply Rabs_le. lra. }
  pose proof (prod_bound _ _ _ _ HX HY) as XY. apply Rabs_le_inv in Q, XY.
  assert (xy : Rabs (x * y) <= 102 / 100) by (apply Rabs_le; lra).
  assert (u * Rabs (x * y) <= u * (102 / 100)) by (apply Rmult_le_compat_l; lra).
  apply Rabs_le_inv in Hm. split; apply Rabs_le; lra.
Qed.
Lemma cq_diff m1 m2 M1 M2 n : Rabs (m1 - M1) <= 222 / 10 * u -> Rabs (m2 - M2) <= 222 / 10 * u -> Rabs (M1 - M2) <= 1 ->
  Rabs (n - (m1 - m2)) <= u * Rabs (m1 - m2) -> Rabs (n - (M1 - M2)) <= 46 * u.
Proof.
  intros H1 H2 H3 H4. apply Rabs_le_inv in H1, H2, H3. assert (Q : Rabs (m1 - m2) <= 105 / 100) by (apply Rabs_le; lra).
  assert (u * Rabs (m1 - m2) <= u * (105 / 100)) by (apply Rmult_le_compat_l; lra). apply Rabs_le_inv in H4. apply Rabs_le. lra.
Qed.
(** [D = s^2] *)
Lemma cq_quot s de nt N : 0 < s <= 1 -> 92 * u <= s * s -> Rabs (de - s * s) <= 46 * u -> Rabs N <= s -> Rabs (nt - N) <= 46 * u ->
  s * s <= 2 * de /\ Rabs (nt / de) * s <= 3 /\
  forall tau, Rabs (tau - nt / de) <= u * Rabs (nt / de) + u -> Rabs (tau - N / (s * s)) * (s * s * s) <= 190 * u.
Proof.
  intros Hs Hd Ed HN En. set (D := s * s) in *.
  assert (D0 : 0 < D) by (apply Rmult_lt_0_compat; lra). assert (D1 : D <= s) by (unfold D; assert (s * s <= s * 1) by (apply Rmult_le_compat_l; lra); lra).
  assert (de0 : D <= 2 * de) by (apply Rabs_le_inv in Ed; lra). assert (de1 : 0 < de) by lra.
  assert (Ant : Rabs nt <= s + 46 * u). { apply Rabs_le_inv in En, HN. apply Rabs_le. lra. }
  assert (Q : Rabs (nt / de) * s <= 3).
  { rewrite div_abs by exact de1. replace (Rabs nt / de * s) with (Rabs nt * s / de) by (field; lra). apply div_le; [exact de1|].
    assert (Rabs nt * s <= (s + 46 * u) * s) by (apply Rmult_le_compat_r; lra). assert (46 * u * s <= 46 * u * 1) by (apply Rmult_le_compat_l; lra).
    unfold D in *. lra. }
  split; [exact de0|]. split; [exact Q|]. intros tau Ht.
  assert (ss : 0 <= D * s) by (apply Rmult_le_pos; lra).
  assert (E1 : Rabs (nt / de - N / D) * (D * s) <= 184 * u).
  { replace (nt / de - N / D) with (((nt - N) * D - N * (de - D)) / (de * D)) by (field; lra).
    assert (dD : 0 < de * D) by (apply Rmult_lt_0_compat; lra). rewrite div_abs by exact dD.
    assert (T : Rabs ((nt - N) * D - N * (de - D)) <= 46 * u * D + s * (46 * u)).
    { pose proof (prod_bound (nt - N) D (46 * u) D En ltac:(rewrite Rabs_pos_eq; lra)) as Q1. pose proof (prod_bound _ _ _ _ HN Ed) as Q2.
      apply Rabs_le_inv in Q1, Q2. apply Rabs_le. lra. }
    replace (Rabs ((nt - N) * D - N * (de - D)) / (de * D) * (D * s)) with (Rabs ((nt - N) * D - N * (de - D)) * s / de) by (field; lra).
    apply div_le; [exact de1|].
    assert (T2 : Rabs ((nt - N) * D - N * (de - D)) * s <= (46 * u * D + s * (46 * u)) * s) by (apply Rmult_le_compat_r; lra).
    assert (Ds : D * s <= D * 1) by (apply Rmult_le_compat_l; lra). assert (u * (D * s) <= u * D) by (apply Rmult_le_compat_l; lra).
    assert (u * D <= u * (2 * de)) by (apply Rmult_le_compat_l; lra).
    assert (E : (46 * u * D + s * (46 * u)) * s = 46 * (u * (D * s)) + 46 * (u * D)) by (unfold D; ring). rewrite E in T2. lra. }
  assert (E2 : Rabs (tau - nt / de) * (D * s) <= 4 * u).
  { assert (K : Rabs (tau - nt / de) * (D * s) <= (u * Rabs (nt / de) + u) * (D * s)) by (apply Rmult_le_compat_r; lra).
    assert (Rabs (nt / de) * s * D <= 3 * D) by (apply Rmult_le_compat_r; lra).
    assert (K2 : u * (Rabs (nt / de) * s * D) <= u * 3) by (apply Rmult_le_compat_l; lra).
    assert (D * s <= 1 * 1) by (apply Rmult_le_compat; lra). assert (u * (D * s) <= u * 1) by (apply Rmult_le_compat_l; lra).
    replace ((u * Rabs (nt / de) + u) * (D * s)) with (u * (Rabs (nt / de) * s * D) + u * (D * s)) in K by ring. lra. }
  replace (tau - N / D) with ((tau - nt / de) + (nt / de - N / D)) by ring.
  assert (Rabs ((tau - nt / de) + (nt / de - N / D)) * (D * s) <= (Rabs (tau - nt / de) + Rabs (nt / de - N / D)) * (D * s)) by (apply Rmult_le_compat_r; [exact ss|apply Rabs_triang]).
  lra.
Qed.
End CQ.

(** ** Identities *)
Lemma rcross_gram (d d' : vec R 3) : rdot (rcross d d') (rcross d d') = gram d d'.
Proof. destruct d as [a [b [c []]]], d' as [x [y [z []]]]. unfold gram, rcross. cbn. ring. Qed.
Lemma rcross_norm (d d' : vec R 3) : rnorm (rcross d d') * rnorm (rcross d d') = gram d d'.
Proof. rewrite rnorm_sq. apply rcross_gram. Qed.
Lemma rcross_le (d d' : vec R 3) : rnorm (rcross d d') <= rnorm d * rnorm d'.
Proof.
  assert (H : Rabs (rnorm (rcross d d')) <= rnorm d * rnorm d'); [|rewrite Rabs_pos_eq in H by apply rnorm_nonneg; exact H].
  apply abs_le_of_sq; [apply Rmult_le_pos; apply rnorm_nonneg|]. rewrite rcross_norm. unfold gram. rewrite <- !rnorm_sq. pose proof (Rle_0_sqr (rdot d d')) as K. unfold Rsqr in K. lra.
Qed.
(** the numerators of the two parameters *)
Lemma binet (d d' w : vec R 3) : rdot d d' * rdot d' w - rdot d' d' * rdot d w = rdot (rcross d d') (rcross d' w).
Proof. destruct d as [a [b [c []]]], d' as [x [y [z []]]], w as [p [q [r []]]]. unfold rcross. cbn. ring. Qed.
Lemma binet' (d d' w : vec R 3) : rdot d d * rdot d' w - rdot d d' * rdot d w = rdot (rcross d d') (rcross d w).
Proof. destruct d as [a [b [c []]]], d' as [x [y [z []]]], w as [p [q [r []]]]. unfold rcross. cbn. ring. Qed.
Lemma numerator_le (d d' v w : vec R 3) : Rabs (rdot (rcross d d') (rcross v w)) <= rnorm (rcross d d') * (rnorm v * rnorm w).
Proof. eapply Rle_trans; [apply cauchy_schwarz|]. apply Rmult_le_compat_l; [apply rnorm_nonneg|apply rcross_le]. Qed.

(** the parameters of the closest points *)
Lemma feet_params (o d o' d' : vec R 3) T T' : feet o d o' d' T T' -> gram d d' <> 0 -> let w := rsub o o' in
  T * gram d d' = rdot d d' * rdot d' w - rdot d' d' * rdot d w /\ T' * gram d d' = rdot d d * rdot d' w - rdot d d' * rdot d w.
Proof.
  intros HF Hg w. set (L := raw_linal (RS 1) 0). pose proof (raw_linal_R 1 0 (Rle_refl 0)) as HL. fold L in HL.
  pose proof (closest_params_gram (M := 1) (L := L) 0 o d o' d') as E. fold w in E.
  destruct (isZero L 0 (gram d d')) eqn:Z; [exfalso; apply (zero_t HL) in Z; [|lra]; apply Hg; lra|].
  destruct (closest_params_unique HL 0 o d o' d' _ _ (Rle_refl 0) E T T' (HF _ _)) as (-> & ->). split; field; exact Hg.
Qed.

(** ** The scene *)
Section SK.
Context {p e : Z} {Hp : Prec_gt_0 p} {He : Prec_lt_emax p e}.
Notation bf := (binary_float p e).
Notation rnd := (rndf p e).
Notation fadd := (@Bplus p e Hp He mode_NE).
Notation fsub := (@Bminus p e Hp He mode_NE).
Notation fmul := (@Bmult p e Hp He mode_NE).
Notation fdiv := (@Bdiv p e Hp He mode_NE).
Notation u := (uround p).
Notation eta := (uflow p e).
Context (fc fs fa : bf -> bf) (fpi : bf).
Let S := IEEE p e Hp He fc fs fa fpi.
Context (Hu1 : 1024 * u <= 1).
Context (k : Z) (Hk4 : (4 * k + 6 <= e)%Z) (Hk2 : (2 * k <= e - p)%Z).
Let mid (x : R) := bpow radix2 (- k) <= x <= bpow radix2 k.

Lemma sk_u : 0 < u <= 1 / 1024.
Proof. pose proof (@u_pos p) as H. pose proof Hu1. lra. Qed.
Lemma mid_pos x : mid x -> 0 < x.
Proof. intros H. pose proof (bpow_gt_0 radix2 (- k)). unfold mid in H. lra. Qed.
Lemma mid_k x : mid x -> (0 <= k)%Z.
Proof. intros H. assert (Q : bpow radix2 (- k) <= bpow radix2 k) by (unfold mid in H; lra). apply le_bpow in Q. lia. Qed.
Lemma mid2 x y : mid x -> mid y -> bpow radix2 (- (2 * k)) <= x * y <= bpow radix2 (2 * k).
Proof.
  intros Hx Hy. pose proof (mid_pos x Hx). pose proof (mid_pos y Hy). unfold mid in *. pose proof (bpow_gt_0 radix2 (- k)).
  replace (- (2 * k))%Z with (- k + - k)%Z by lia. replace (2 * k)%Z with (k + k)%Z by lia. rewrite !bpow_plus. split; apply Rmult_le_compat; lra.
Qed.
Lemma mid4 x y z w : mid x -> mid y -> mid z -> mid w -> bpow radix2 (- (4 * k)) <= x * y * (z * w) <= bpow radix2 (4 * k).
Proof.
  intros Hx Hy Hz Hw. destruct (mid2 x y Hx Hy) as (A1 & A2), (mid2 z w Hz Hw) as (B1 & B2). pose proof (bpow_gt_0 radix2 (- (2 * k))) as B0.
  replace (- (4 * k))%Z with (- (2 * k) + - (2 * k))%Z by lia. replace (4 * k)%Z with (2 * k + 2 * k)%Z by lia. rewrite !bpow_plus. split; apply Rmult_le_compat; lra.
Qed.
Lemma sk_eta : eta = u * bpow radix2 (2 - e).
Proof. unfold uflow, uround. rewrite <- bpow_plus. f_equal. lia. Qed.
Lemma under2 x y : mid x -> mid y -> eta <= u * (x * y).
Proof.
  intros Hx Hy. pose proof (mid_k x Hx) as K0. rewrite sk_eta. apply Rmult_le_compat_l; [pose proof sk_u; lra|]. destruct (mid2 x y Hx Hy) as (A & _).
  eapply Rle_trans; [|exact A]. apply bpow_le. lia.
Qed.
Lemma under4 x y z w : mid x -> mid y -> mid z -> mid w -> eta <= u * (x * y * (z * w)).
Proof.
  intros Hx Hy Hz Hw. pose proof (mid_k x Hx) as K0. rewrite sk_eta. apply Rmult_le_compat_l; [pose proof sk_u; lra|]. destruct (mid4 x y z w Hx Hy Hz Hw) as (A & _).
  eapply Rle_trans; [|exact A]. apply bpow_le. lia.
Qed.
Lemma over2 x y : mid x -> mid y -> x * y <= bpow radix2 (e - 6).
Proof. intros Hx Hy. pose proof (mid_k x Hx). destruct (mid2 x y Hx Hy) as (_ & A). eapply Rle_trans; [exact A|]. apply bpow_le. lia. Qed.
Lemma over4 x y z w : mid x -> mid y -> mid z -> mid w -> x * y * (z * w) <= bpow radix2 (e - 6).
Proof. intros Hx Hy Hz Hw. destruct (mid4 x y z w Hx Hy Hz Hw) as (_ & A). eapply Rle_trans; [exact A|]. apply bpow_le. lia. Qed.
Lemma sk_big : bpow radix2 (e - 1) = 32 * bpow radix2 (e - 6) /\ bpow radix2 (e - 3) = 8 * bpow radix2 (e - 6) /\ bpow radix2 (e - 2) = 16 * bpow radix2 (e - 6).
Proof.
  repeat split.
  - replace (e - 1)%Z with (5 + (e - 6))%Z by lia. rewrite bpow_plus. reflexivity.
  - replace (e - 3)%Z with (3 + (e - 6))%Z by lia. rewrite bpow_plus. reflexivity.
  - replace (e - 2)%Z with (4 + (e - 6))%Z by lia. rewrite bpow_plus. reflexivity.
Qed.

(** [x], a computed number, is the exact [X] up to 10 roundings of the unit [s] *)
Definition unit10 (x : bf) (X s : R) : Prop := fin x /\ Rabs (B2R x / s - X / s) <= 10 * u /\ Rabs (X / s) <= 1.

Lemma dot_unit (x y : vec bf 3) (X Y : vec R 3) A B : mid A -> mid B -> finite_pt x -> finite_pt y ->
  rdist (vreal x) X <= u * rnorm X -> rdist (vreal y) Y <= u * rnorm Y -> rnorm X <= A -> rnorm Y <= B ->
  unit10 (@dot S 3 x y) (rdot X Y) (A * B).
Proof.
  intros HA HB Fx Fy Hx Hy NX NY. pose proof (mid_pos A HA) as A0. pose proof (mid_pos B HB) as B0. pose proof sk_u as Hu.
  assert (AB : 0 < A * B) by (apply Rmult_lt_0_compat; assumption). pose proof (over2 A B HA HB) as O. pose proof (under2 A B HA HB) as U. destruct sk_big as (_ & B3 & _).
  pose proof (bpow_gt_0 radix2 (e - 6)) as Bp. pose proof (rnorm_nonneg X) as X0. pose proof (rnorm_nonneg Y) as Y0.
  assert (XY : rnorm X * rnorm Y <= A * B) by (apply Rmult_le_compat; assumption).
  destruct (dot_two fc fs fa fpi x y X Y ltac:(lra) Fx Fy Hx Hy ltac:(lra)) as (F & E). fold S in F, E.
  split; [exact F|]. assert (uXY : u * (rnorm X * rnorm Y) <= u * (A * B)) by (apply Rmult_le_compat_l; lra). assert (0 < u * (A * B)) by (apply Rmult_lt_0_compat; lra).
  split; [apply in_units; [exact AB|lra]|]. apply abs_units; [exact AB|]. eapply Rle_trans; [apply cauchy_schwarz|]. lra.
Qed.
Lemma mul_unit (x y : bf) X Y s t : 0 < s -> 0 < t -> eta <= u * (s * t) -> s * t <= bpow radix2 (e - 6) -> unit10 x X s -> unit10 y Y t ->
  fin (fmul x y) /\ Rabs (B2R (fmul x y) / (s * t) - X / s * (Y / t)) <= 222 / 10 * u /\ Rabs (B2R (fmul x y) / (s * t)) <= 1022 / 1000.
Proof.
  intros Hs Ht U O (Fx & Ex & Bx) (Fy & Ey & By). pose proof sk_u as Hu. destruct sk_big as (B1 & _). pose proof (bpow_gt_0 radix2 (e - 6)) as Bp.
  assert (st : 0 < s * t) by (apply Rmult_lt_0_compat; assumption).
  assert (N : Rabs (B2R x * B2R y) <= bpow radix2 (e - 1)).
  { assert (Q1 : Rabs (B2R x / s) <= 2) by (apply Rabs_le_inv in Ex, Bx; apply Rabs_le; lra). assert (Q2 : Rabs (B2R y / t) <= 2) by (apply Rabs_le_inv in Ey, By; apply Rabs_le; lra).
    apply of_units in Q1; [|exact Hs]. apply of_units in Q2; [|exact Ht]. pose proof (prod_bound _ _ _ _ Q1 Q2). lra. }
  destruct (mul_n x y s t Hs Ht Fx Fy U N) as (F & E). split; [exact F|]. exact (cq_prod u Hu _ _ _ _ _ Ex Bx Ey By E).
Qed.
Lemma diff_unit (x y : bf) X Y s : 0 < s -> s <= bpow radix2 (e - 6) -> fin x -> fin y ->
  Rabs (B2R x / s - X) <= 222 / 10 * u -> Rabs (B2R x / s) <= 1022 / 1000 -> Rabs (B2R y / s - Y) <= 222 / 10 * u -> Rabs (B2R y / s) <= 1022 / 1000 -> Rabs (X - Y) <= 1 ->
  fin (fsub x y) /\ Rabs (B2R (fsub x y) / s - (X - Y)) <= 46 * u.
Proof.
  intros Hs O Fx Fy Ex Bx Ey By XY. pose proof sk_u as Hu. destruct sk_big as (B1 & _). pose proof (bpow_gt_0 radix2 (e - 6)) as Bp.
  assert (N : Rabs (B2R x - B2R y) <= bpow radix2 (e - 1)).
  { apply of_units in Bx; [|exact Hs]. apply of_units in By; [|exact Hs]. apply Rabs_le_inv in Bx, By. apply Rabs_le. lra. }
  destruct (diff_n x y s Hs Fx Fy N) as (F & E). split; [exact F|]. exact (cq_diff u Hu _ _ _ _ _ Ex Ey XY E).
Qed.

Context (o o' sd sd' : vec bf 3) (d d' : vec R 3) (G : R).
Context (Hd : rdist (vreal sd) d <= u * rnorm d) (Hd' : rdist (vreal sd') d' <= u * rnorm d').
Context (Fo : finite_pt o) (Fo' : finite_pt o') (Fs : finite_pt sd) (Fs' : finite_pt sd').
Let w := rsub (vreal o) (vreal o').
Let W := rnorm w.
Let L := rnorm d.
Let M := rnorm d'.
Context (ML : mid L) (MM : mid M) (MG : mid G) (HW : W <= G).
Let wh := @vsub S 3 o o' : vec bf 3.
Let a := @dot S 3 sd sd : bf.
Let b := @dot S 3 sd sd' : bf.
Let c := @dot S 3 sd' sd' : bf.
Let dd := @dot S 3 sd wh : bf.
Let ee := @dot S 3 sd' wh : bf.
Let den := fsub (fmul a c) (fmul b b).
Let nt := fsub (fmul b ee) (fmul c dd).
Let ns := fsub (fmul a ee) (fmul b dd).
Let sn := sine d d'.

Lemma sk_wh : finite_pt wh /\ rdist (vreal wh) w <= u * rnorm w.
Proof.
  pose proof sk_u. destruct sk_big as (_ & _ & B2). pose proof (mid_k G MG) as K0. pose proof (bpow_gt_0 radix2 (e - 6)) as Bp.
  assert (F : finite_pt wh). { apply (sub_finite_near fc fs fa fpi 3 o o'); [lra|exact Fo|exact Fo'|]. change (W <= bpow radix2 (e - 2)).
    assert (bpow radix2 k <= bpow radix2 (e - 2)) by (apply bpow_le; lia). unfold mid in MG. lra. }
  split; [exact F|]. exact (sub_err fc fs fa fpi 3 o o' Fo Fo' F).
Qed.
Lemma sk_pos : 0 < L /\ 0 < M /\ 0 < G.
Proof. repeat split; apply mid_pos; assumption. Qed.
Lemma sk_sine : 0 <= sn <= 1 /\ gram d d' = L * L * (M * M) * (sn * sn) /\ rnorm (rcross d d') = L * M * sn.
Proof.
  destruct sk_pos as (L0 & M0 & _). assert (LM : 0 < L * M) by (apply Rmult_lt_0_compat; assumption).
  assert (E : rnorm (rcross d d') = L * M * sn) by (unfold sn, sine; fold L M; field; lra).
  split; [|split; [rewrite <- rcross_norm, E; ring|exact E]]. unfold sn, sine. fold L M. split.
  - apply Rmult_le_pos; [apply rnorm_nonneg|left; apply Rinv_0_lt_compat, LM].
  - apply div_le; [exact LM|]. rewrite Rmult_1_l. apply rcross_le.
Qed.
Let sB := rdot d d' / (L * M).
Let sP1 := rdot d w / (L * G).
Let sP2 := rdot d' w / (M * G).
Lemma sk_a : unit10 a (L * L) (L * L).
Proof. unfold L at 1 2. rewrite rnorm_sq. apply (dot_unit sd sd d d L L); auto; apply Rle_refl. Qed.
Lemma sk_b : unit10 b (rdot d d') (L * M).
Proof. apply (dot_unit sd sd' d d' L M); auto; apply Rle_refl. Qed.
Lemma sk_c : unit10 c (M * M) (M * M).
Proof. unfold M at 1 2. rewrite rnorm_sq. apply (dot_unit sd' sd' d' d' M M); auto; apply Rle_refl. Qed.
Lemma sk_dd : unit10 dd (rdot d w) (L * G).
Proof. destruct sk_wh as (Fw & Ew). apply (dot_unit sd wh d w L G); auto; apply Rle_refl. Qed.
Lemma sk_ee : unit10 ee (rdot d' w) (M * G).
Proof. destruct sk_wh as (Fw & Ew). apply (dot_unit sd' wh d' w M G); auto; apply Rle_refl. Qed.

Lemma sk_D : 1 - sB * sB = sn * sn.
Proof.
  destruct sk_pos as (L0 & M0 & _). destruct sk_sine as (_ & E & _). unfold gram in E. rewrite <- !rnorm_sq in E. fold L M in E.
  assert (LM : 0 < L * M) by (apply Rmult_lt_0_compat; assumption).
  apply Rmult_eq_reg_l with (L * L * (M * M)); [|apply Rgt_not_eq; apply Rmult_lt_0_compat; apply Rmult_lt_0_compat; assumption].
  rewrite <- E. unfold sB. field. lra.
Qed.
Lemma sk_N1 : sB * sP2 - sP1 = (rdot d d' * rdot d' w - rdot d' d' * rdot d w) / (L * M * (M * G)) /\ Rabs (sB * sP2 - sP1) <= sn.
Proof.
  destruct sk_pos as (L0 & M0 & G0). destruct sk_sine as ((s0 & _) & _ & E).
  assert (E1 : sB * sP2 - sP1 = (rdot d d' * rdot d' w - rdot d' d' * rdot d w) / (L * M * (M * G))).
  { rewrite <- (rnorm_sq d'). fold M. unfold sB, sP1, sP2. field. lra. }
  split; [exact E1|]. rewrite E1, binet. apply abs_units; [repeat apply Rmult_lt_0_compat; assumption|].
  eapply Rle_trans; [apply numerator_le|]. rewrite E. fold M W.
  assert (0 <= L * M * sn * M) by (apply Rmult_le_pos; [apply Rmult_le_pos; [apply Rmult_le_pos|]|]; lra).
  assert (L * M * sn * M * W <= L * M * sn * M * G) by (apply Rmult_le_compat_l; lra). lra.
Qed.
Lemma sk_N2 : sP2 - sB * sP1 = (rdot d d * rdot d' w - rdot d d' * rdot d w) / (L * L * (M * G)) /\ Rabs (sP2 - sB * sP1) <= sn.
Proof.
  destruct sk_pos as (L0 & M0 & G0). destruct sk_sine as ((s0 & _) & _ & E).
  assert (E1 : sP2 - sB * sP1 = (rdot d d * rdot d' w - rdot d d' * rdot d w) / (L * L * (M * G))).
  { rewrite <- (rnorm_sq d). fold L. unfold sB, sP1, sP2. field. lra. }
  split; [exact E1|]. rewrite E1, binet'. apply abs_units; [repeat apply Rmult_lt_0_compat; assumption|].
  eapply Rle_trans; [apply numerator_le|]. rewrite E. fold L W.
  assert (0 <= L * M * sn * L) by (apply Rmult_le_pos; [apply Rmult_le_pos; [apply Rmult_le_pos|]|]; lra).
  assert (L * M * sn * L * W <= L * M * sn * L * G) by (apply Rmult_le_compat_l; lra). lra.
Qed.

(** the denominator and the numerators *)
Lemma sk_den : fin den /\ Rabs (B2R den / (L * L * (M * M)) - sn * sn) <= 46 * u.
Proof.
  destruct sk_pos as (L0 & M0 & G0). destruct sk_sine as ((s0 & s1) & _ & _). assert (LM : 0 < L * M) by (apply Rmult_lt_0_compat; assumption).
  assert (LL : 0 < L * L) by (apply Rmult_lt_0_compat; assumption). assert (MM0 : 0 < M * M) by (apply Rmult_lt_0_compat; assumption).
  destruct (mul_unit a c (L * L) (M * M) (L * L) (M * M) LL MM0 (under4 _ _ _ _ ML ML MM MM) (over4 _ _ _ _ ML ML MM MM) sk_a sk_c) as (F1 & E1 & B1).
  destruct (mul_unit b b (rdot d d') (rdot d d') (L * M) (L * M) LM LM (under4 _ _ _ _ ML MM ML MM) (over4 _ _ _ _ ML MM ML MM) sk_b sk_b) as (F2 & E2 & B2).
  replace (L * M * (L * M)) with (L * L * (M * M)) in E2, B2 by ring. replace (L * L / (L * L) * (M * M / (M * M))) with 1 in E1 by (field; lra). fold sB in E2.
  rewrite <- sk_D. apply diff_unit; try assumption; [apply Rmult_lt_0_compat; assumption|apply (over4 _ _ _ _ ML ML MM MM)|].
  rewrite sk_D, Rabs_pos_eq by apply Rle_0_sqr. assert (sn * sn <= 1 * 1) by (apply Rmult_le_compat; lra). lra.
Qed.
Lemma sk_nt : fin nt /\ Rabs (B2R nt / (L * M * (M * G)) - (sB * sP2 - sP1)) <= 46 * u.
Proof.
  destruct sk_pos as (L0 & M0 & G0). destruct sk_sine as ((s0 & s1) & _ & _). assert (LM : 0 < L * M) by (apply Rmult_lt_0_compat; assumption).
  assert (LG : 0 < L * G) by (apply Rmult_lt_0_compat; assumption). assert (MM0 : 0 < M * M) by (apply Rmult_lt_0_compat; assumption). assert (MG0 : 0 < M * G) by (apply Rmult_lt_0_compat; assumption).
  destruct (mul_unit b ee (rdot d d') (rdot d' w) (L * M) (M * G) LM MG0 (under4 _ _ _ _ ML MM MM MG) (over4 _ _ _ _ ML MM MM MG) sk_b sk_ee) as (F1 & E1 & B1).
  destruct (mul_unit c dd (M * M) (rdot d w) (M * M) (L * G) MM0 LG (under4 _ _ _ _ MM MM ML MG) (over4 _ _ _ _ MM MM ML MG) sk_c sk_dd) as (F2 & E2 & B2).
  replace (M * M * (L * G)) with (L * M * (M * G)) in E2, B2 by ring. replace (M * M / (M * M)) with 1 in E2 by (field; lra). fold sB sP2 in E1. fold sP1 in E2. rewrite Rmult_1_l in E2.
  apply diff_unit; try assumption; [apply Rmult_lt_0_compat; assumption|apply (over4 _ _ _ _ ML MM MM MG)|]. destruct sk_N1 as (_ & K). lra.
Qed.
Lemma sk_ns : fin ns /\ Rabs (B2R ns / (L * L * (M * G)) - (sP2 - sB * sP1)) <= 46 * u.
Proof.
  destruct sk_pos as (L0 & M0 & G0). destruct sk_sine as ((s0 & s1) & _ & _). assert (LM : 0 < L * M) by (apply Rmult_lt_0_compat; assumption).
  assert (LG : 0 < L * G) by (apply Rmult_lt_0_compat; assumption). assert (LL : 0 < L * L) by (apply Rmult_lt_0_compat; assumption). assert (MG0 : 0 < M * G) by (apply Rmult_lt_0_compat; assumption).
  destruct (mul_unit a ee (L * L) (rdot d' w) (L * L) (M * G) LL MG0 (under4 _ _ _ _ ML ML MM MG) (over4 _ _ _ _ ML ML MM MG) sk_a sk_ee) as (F1 & E1 & B1).
  destruct (mul_unit b dd (rdot d d') (rdot d w) (L * M) (L * G) LM LG (under4 _ _ _ _ ML MM ML MG) (over4 _ _ _ _ ML MM ML MG) sk_b sk_dd) as (F2 & E2 & B2).
  replace (L * M * (L * G)) with (L * L * (M * G)) in E2, B2 by ring. replace (L * L / (L * L)) with 1 in E1 by (field; lra). fold sB sP1 in E2. fold sP2 in E1. rewrite Rmult_1_l in E1.
  apply diff_unit; try assumption; [apply Rmult_lt_0_compat; assumption|apply (over4 _ _ _ _ ML ML MM MG)|]. destruct sk_N2 as (_ & K). lra.
Qed.

(** the quotients *)
Lemma sk_quotient (x : bf) (num A B : R) : mid A -> 92 * u <= sn * sn -> fin x -> L * L * (M * M) = A * B -> 0 < B ->
  Rabs (B2R x / (B * G) - num / (B * G)) <= 46 * u -> Rabs (num / (B * G)) <= sn ->
  fin (fdiv x den) /\ Rabs (B2R (fdiv x den) - num / gram d d') * A <= feet_bound p G d d' /\ Rabs (B2R (fdiv x den)) * A * sn <= 4 * G.
Proof.
  intros HA Hsk Fx EA B0 Ex Bx. pose proof sk_u as Hu. destruct sk_pos as (L0 & M0 & G0). destruct sk_sine as ((s0 & s1) & Eg & _). pose proof (mid_pos A HA) as A0.
  assert (sp : 0 < sn). { destruct (Req_dec sn 0) as [Z|N]; [rewrite Z in Hsk; lra|lra]. }
  destruct sk_den as (Fd & Ed). rewrite EA in Ed. assert (AB : 0 < A * B) by (apply Rmult_lt_0_compat; assumption). assert (BG : 0 < B * G) by (apply Rmult_lt_0_compat; assumption).
  destruct (cq_quot u Hu sn _ _ _ (conj sp s1) Hsk Ed Bx Ex) as (Q1 & Q2 & Q3).
  assert (dn : B2R den / (A * B) <> 0) by (assert (0 < sn * sn) by (apply Rmult_lt_0_compat; assumption); lra).
  assert (dn0 : B2R den <> 0) by (intros Z; apply dn; rewrite Z; unfold Rdiv; ring).
  assert (EQ : B2R x / B2R den = B2R x / (B * G) / (B2R den / (A * B)) * (G / A)) by (field; repeat split; (exact dn0 || lra)).
  assert (GA : 0 < G / A) by (apply Rdiv_lt_0_compat; assumption).
  assert (GA2 : G / A <= bpow radix2 (2 * k)).
  { apply div_le; [exact A0|]. replace (2 * k)%Z with (k + k)%Z by lia. rewrite bpow_plus. unfold mid in HA, MG.
    assert (bpow radix2 k * bpow radix2 (- k) <= bpow radix2 k * A) by (apply Rmult_le_compat_l; [apply bpow_ge_0|lra]). rewrite <- bpow_plus in H. replace (k + - k)%Z with 0%Z in H by lia. change (bpow radix2 0) with 1 in H.
    assert (bpow radix2 k * 1 <= bpow radix2 k * (bpow radix2 k * A)) by (apply Rmult_le_compat_l; [apply bpow_ge_0|exact H]). lra. }
  set (z := B2R x / (B * G) / (B2R den / (A * B))) in *.
  assert (zs : Rabs z <= bpow radix2 (p - 1)).
  { (* 1/sn <= sn / (92 u) *)
    assert (K : Rabs z * sn * sn <= 3 * sn) by (apply Rmult_le_compat_r; lra).
    assert (K2 : Rabs z * (92 * u) <= Rabs z * (sn * sn)) by (apply Rmult_le_compat_l; [apply Rabs_pos|exact Hsk]).
    assert (K3 : Rabs z * (92 * u) <= 3) by lra.
    assert (Eu : u * bpow radix2 (p - 1) = 1 / 2). { unfold uround. rewrite <- bpow_plus. replace (- p + (p - 1))%Z with (-1)%Z by lia. cbn. lra. }
    apply Rmult_le_reg_r with u; [lra|]. replace (bpow radix2 (p - 1) * u) with (1 / 2) by (rewrite <- Eu; ring). lra. }
  assert (Nq : Rabs (B2R x / B2R den) <= bpow radix2 (e - 1)).
  { rewrite EQ. replace (e - 1)%Z with (p - 1 + (e - p))%Z by lia. rewrite bpow_plus. apply prod_bound; [exact zs|]. rewrite Rabs_pos_eq by lra. eapply Rle_trans; [exact GA2|]. apply bpow_le. lia. }
  assert (Uq : eta * (A * B) <= u * (B * G)).
  { rewrite sk_eta. replace (u * bpow radix2 (2 - e) * (A * B)) with (u * B * (bpow radix2 (2 - e) * A)) by ring. replace (u * (B * G)) with (u * B * G) by ring.
    apply Rmult_le_compat_l; [apply Rmult_le_pos; lra|]. unfold mid in HA, MG. apply Rle_trans with (bpow radix2 (2 - e) * bpow radix2 k); [apply Rmult_le_compat_l; [apply bpow_ge_0|lra]|].
    rewrite <- bpow_plus. apply Rle_trans with (bpow radix2 (- k)); [|lra]. apply bpow_le. pose proof (mid_k A HA). lia. }
  destruct (quot_n x den (B * G) (A * B) BG AB Fx dn0 Uq Nq) as (F & E). fold z in E.
  split; [exact F|]. specialize (Q3 _ E).
  set (tq := B2R (fdiv x den)) in *. assert (Et : tq * (A * B) / (B * G) = tq * A / G) by (field; lra). rewrite Et in Q3, E.
  assert (sss : 0 < sn * sn * sn) by (apply Rmult_lt_0_compat; [apply Rmult_lt_0_compat|]; assumption).
  split.
  - unfold feet_bound. fold sn. replace (tq - num / gram d d') with ((tq * A / G - num / (B * G) / (sn * sn)) * (G / A)).
    2:{ rewrite Eg, EA. field. repeat split; lra. }
    rewrite Rabs_mult, (Rabs_pos_eq (G / A)) by lra.
    replace (Rabs (tq * A / G - num / (B * G) / (sn * sn)) * (G / A) * A) with (Rabs (tq * A / G - num / (B * G) / (sn * sn)) * (sn * sn * sn) * (G / (sn * sn * sn))) by (field; lra).
    replace (190 * u * G / (sn * sn * sn)) with (190 * u * (G / (sn * sn * sn))) by (field; lra). apply Rmult_le_compat_r; [|exact Q3]. left. apply Rdiv_lt_0_compat; assumption.
  - assert (K : Rabs (tq * A / G) * sn <= 4).
    { assert (Rabs (tq * A / G) <= Rabs z + (u * Rabs z + u)).
      { replace (tq * A / G) with ((tq * A / G - z) + z) by ring. eapply Rle_trans; [apply Rabs_triang|]. lra. }
      assert (Rabs (tq * A / G) * sn <= (Rabs z + (u * Rabs z + u)) * sn) by (apply Rmult_le_compat_r; lra).
      assert (u * (Rabs z * sn) <= 1 / 1024 * 3) by (apply Rmult_le_compat; try lra; apply Rmult_le_pos; [apply Rabs_pos|lra]).
      assert (u * sn <= 1 * 1) by (apply Rmult_le_compat; lra). assert (u * sn <= 1 / 1024 * 1) by (apply Rmult_le_compat; lra). lra. }
    replace (tq * A / G) with (tq * A / G) in K by reflexivity. rewrite div_abs in K by exact G0. rewrite Rabs_mult, (Rabs_pos_eq A) in K by lra.
    replace (Rabs tq * A * sn) with (Rabs tq * A / G * sn * G) by (field; lra). apply Rmult_le_compat_r; lra.
Qed.
Lemma sk_params T T' : feet (vreal o) d (vreal o') d' T T' -> 92 * u <= sn * sn ->
  B2R den <> 0 /\
  fin (fdiv nt den) /\ Rabs (B2R (fdiv nt den) - T) * L <= feet_bound p G d d' /\ Rabs (B2R (fdiv nt den)) * L * sn <= 4 * G /\
  fin (fdiv ns den) /\ Rabs (B2R (fdiv ns den) - T') * M <= feet_bound p G d d' /\ Rabs (B2R (fdiv ns den)) * M * sn <= 4 * G.
Proof.
  intros HF Hsk. pose proof sk_u as Hu. destruct sk_pos as (L0 & M0 & G0). destruct sk_sine as ((s0 & s1) & Eg & _).
  assert (ss : 0 < sn * sn) by lra. assert (g0 : gram d d' <> 0). { rewrite Eg. apply Rgt_not_eq. apply Rmult_lt_0_compat; [repeat apply Rmult_lt_0_compat; assumption|exact ss]. }
  destruct (feet_params _ _ _ _ _ _ HF g0) as (E1 & E2). fold w in E1, E2.
  destruct sk_nt as (Fn & En), sk_ns as (Fm & Em), sk_N1 as (N1 & B1), sk_N2 as (N2 & B2). rewrite N1 in En, B1. rewrite N2 in Em, B2.
  split.
  { destruct sk_den as (_ & Ed). intros Z. rewrite Z in Ed. replace (0 / (L * L * (M * M)) - sn * sn) with (- (sn * sn)) in Ed by (field; lra). rewrite Rabs_Ropp, Rabs_pos_eq in Ed by lra. lra. }
  destruct (sk_quotient nt (rdot d d' * rdot d' w - rdot d' d' * rdot d w) L (L * (M * M)) ML Hsk Fn) as (Q1 & Q2 & Q3).
  { ring. } { repeat apply Rmult_lt_0_compat; assumption. }
  { replace (L * (M * M) * G) with (L * M * (M * G)) by ring. exact En. } { replace (L * (M * M) * G) with (L * M * (M * G)) by ring. exact B1. }
  destruct (sk_quotient ns (rdot d d * rdot d' w - rdot d d' * rdot d w) M (L * L * M) MM Hsk Fm) as (R1 & R2 & R3).
  { ring. } { repeat apply Rmult_lt_0_compat; assumption. }
  { replace (L * L * M * G) with (L * L * (M * G)) by ring. exact Em. } { replace (L * L * M * G) with (L * L * (M * G)) by ring. exact B2. }
  rewrite <- E1 in Q2. rewrite <- E2 in R2. replace (T * gram d d' / gram d d') with T in Q2 by (field; exact g0). replace (T' * gram d d' / gram d d') with T' in R2 by (field; exact g0).
  split; [exact Q1|]. split; [exact Q2|]. split; [exact Q3|]. split; [exact R1|]. split; [exact R2|exact R3].
Qed.
Lemma sk_denom : fin den /\ Rabs (B2R den - gram d d') <= denom_bound p d d'.
Proof.
  destruct sk_den as (F & E). destruct sk_pos as (L0 & M0 & G0). destruct sk_sine as (_ & Eg & _). split; [exact F|]. rewrite Eg. unfold denom_bound. rewrite <- !rnorm_sq. fold L M.
  set (k4 := L * L * (M * M)) in *. assert (K0 : 0 < k4) by (unfold k4; repeat apply Rmult_lt_0_compat; assumption).
  replace (B2R den - k4 * (sn * sn)) with ((B2R den / k4 - sn * sn) * k4) by (field; lra). rewrite Rabs_mult, (Rabs_pos_eq k4) by lra. apply Rmult_le_compat_r; lra.
Qed.
End SK.
