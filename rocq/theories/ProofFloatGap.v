(** * Lemmas: distances between lines, rays and segments in floating point *)

From Coq Require Import List Arith Bool Lia Reals Lra ZArith.
From Flocq Require Import Core BinarySingleNaN.
From Verif Require Import Scalar Linal Result SpecReal VecR VecLemmas SpecIEEE SpecFloatErr SpecFloatPlane SpecFloatSkew SpecFloatGap ModelShapes ModelDistance
  ProofDistance ProofRound ProofIEEE ProofBoxIEEE ProofFloatErr ProofFloatNorm ProofFloatDist ProofFloatLine ProofFloatTransform ProofFloatPlane ProofFloatCross ProofFloatSphere ProofFloatSkew
  PropFloatTess PropFloatPlane PropFloatCross PropFloatSkew.
Local Open Scope R_scope.

(** ** Reals: the distance of a line and a ray from the closest points of their lines *)
Lemma along_0 {n} (o d : vec R n) : along o d 0 = o.
Proof. unfold along. now rewrite rscale_0, radd_zero_r. Qed.
Lemma along_shift {n} (o d : vec R n) x y : rdist (along o d x) (along o d y) = Rabs (x - y) * rnorm d.
Proof.
  unfold rdist. replace (rsub (along o d x) (along o d y)) with (rscale (x - y) d); [apply rnorm_scale|]. apply eq_by_dot. unfold along. vring.
Qed.
Lemma rdist_convex {n} (a b a' b' : vec R n) l : 0 <= l <= 1 ->
  rdist (radd (rscale l a) (rscale (1 - l) a')) (radd (rscale l b) (rscale (1 - l) b')) <= l * rdist a b + (1 - l) * rdist a' b'.
Proof.
  intros Hl. unfold rdist. replace (rsub _ _) with (radd (rscale l (rsub a b)) (rscale (1 - l) (rsub a' b'))) by (apply eq_by_dot; vring).
  eapply Rle_trans; [apply rnorm_triangle|]. rewrite !rnorm_scale, !Rabs_pos_eq by lra. lra.
Qed.
Lemma line_ray_split (o d o' d' : vec R 3) T T' : feet o d o' d' T T' -> d <> rzero ->
  let delta := rdist (along o d T) (along o' d' T') in
  exists m m0, is_set_distance (on_line o d) (on_ray o' d') m /\ is_set_distance (fun q => q = o') (on_line o d) m0 /\
    m0 <= delta + Rabs T' * rnorm d' /\ delta <= m0 /\ (0 <= T' -> m = delta) /\ (T' < 0 -> m = m0).
Proof.
  intros HF Hd delta. pose proof (@dist_point_line_spec 0 3 o' (@mkLine (RS 0) 3 o d) Hd) as HM. cbn [l_origin l_dir] in HM.
  set (m0 := dist_point_line o' (@mkLine (RS 0) 3 o d) : R) in *. clearbody m0.
  assert (B1 : m0 <= delta + Rabs T' * rnorm d').
  { destruct HM as (HM & _). eapply Rle_trans; [apply (HM o' (along o d T)); [reflexivity|eexists; reflexivity]|].
    eapply Rle_trans; [apply (rdist_triangle _ (along o' d' T'))|]. rewrite (rdist_sym (along o' d' T')). fold delta.
    rewrite <- (along_0 o' d') at 1. rewrite along_shift. replace (Rabs (0 - T')) with (Rabs T') by (rewrite <- (Rabs_Ropp T'); f_equal; ring). lra. }
  assert (B2 : delta <= m0).
  { destruct HM as (_ & a & b & -> & (x & ->) & E). rewrite <- E, rdist_sym. rewrite <- (along_0 o' d') at 1. apply HF. }
  destruct (Rle_lt_dec 0 T') as [HT|HT].
  - exists delta, m0. split; [|split; [exact HM|]]; [|repeat split; try assumption; intros; lra].
    split; [intros a b (x & ->) (y & _ & ->); apply HF|]. exists (along o d T), (along o' d' T'). split; [eexists; reflexivity|]. split; [exists T'; split; [exact HT|reflexivity]|reflexivity].
  - exists m0, m0. split; [|split; [exact HM|]]; [|repeat split; try assumption; intros; lra].
    split.
    + intros a b (x & ->) (y & Hy & ->). set (l := y / (y - T')). assert (Hl : 0 <= l <= 1).
      { unfold l. split; [apply Rmult_le_pos; [exact Hy|left; apply Rinv_0_lt_compat; lra]|]. apply Rmult_le_reg_r with (y - T'); [lra|]. unfold Rdiv. rewrite Rmult_assoc, Rinv_l by lra. lra. }
      assert (El : l * T' + (1 - l) * y = 0) by (unfold l; field; lra).
      pose proof (rdist_convex (along o d T) (along o' d' T') (along o d x) (along o' d' y) l Hl) as K. fold delta in K.
      assert (E1 : radd (rscale l (along o d T)) (rscale (1 - l) (along o d x)) = along o d (l * T + (1 - l) * x)) by (apply eq_by_dot; unfold along; vring).
      assert (E2 : radd (rscale l (along o' d' T')) (rscale (1 - l) (along o' d' y)) = along o' d' (l * T' + (1 - l) * y)) by (apply eq_by_dot; unfold along; vring).
      rewrite E1, E2, El, along_0 in K. destruct HM as (HM & _). pose proof (HM o' _ eq_refl (ex_intro _ (l * T + (1 - l) * x) eq_refl)) as Q. rewrite rdist_sym in Q.
      pose proof (HF x y) as Q2. fold delta in Q2. assert (l * delta <= l * rdist (along o d x) (along o' d' y)) by (apply Rmult_le_compat_l; lra). lra.
    + destruct HM as (_ & a & b & -> & Hb & E). exists b, o'. split; [exact Hb|]. split; [exists 0; split; [lra|symmetry; apply along_0]|]. rewrite rdist_sym. exact E.
Qed.

(** lines that are not parallel *)
Lemma line_line_gap (o d o' d' : vec R 3) : rcross d d' <> rzero ->
  is_set_distance (on_line o d) (on_line o' d') (Rabs (rdot (rsub o o') (rcross d d')) / rnorm (rcross d d')).
Proof.
  intros HC. set (C := rcross d d') in *. assert (C0 : 0 < rnorm C) by (apply nonzero_norm, HC).
  assert (O : forall x y, rdot (rsub (along o d x) (along o' d' y)) C = rdot (rsub o o') C).
  { intros x y. unfold C. destruct o as [o1 [o2 [o3 []]]], o' as [p1 [p2 [p3 []]]], d as [d1 [d2 [d3 []]]], d' as [e1 [e2 [e3 []]]]. unfold along, rcross. cbn. ring. }
  assert (LB : forall x y, Rabs (rdot (rsub o o') C) / rnorm C <= rdist (along o d x) (along o' d' y)).
  { intros x y. apply div_le; [exact C0|]. rewrite <- (O x y). apply cauchy_schwarz. }
  split; [intros a b (x & ->) (y & ->); apply LB|].
  (* the minimum is attained: the difference of the points at these parameters is a multiple of C *)
  set (g := rdot C C). assert (g0 : 0 < g) by (apply nonzero_dot, HC).
  set (w := rsub o o'). set (x := rdot (rcross d' w) C / g). set (y := rdot (rcross d w) C / g).
  exists (along o d x), (along o' d' y). split; [eexists; reflexivity|]. split; [eexists; reflexivity|].
  assert (E : rsub (along o d x) (along o' d' y) = rscale (rdot w C / g) C).
  { assert (K : rscale g (rsub (along o d x) (along o' d' y)) = rscale g (rscale (rdot w C / g) C)).
    { assert (Ex : x * g = rdot (rcross d' w) C) by (unfold x; field; lra). assert (Ey : y * g = rdot (rcross d w) C) by (unfold y; field; lra).
      assert (Ez : rdot w C / g * g = rdot w C) by (field; lra). set (z := rdot w C / g) in *. clearbody x y z.
      transitivity (radd (rscale g w) (rsub (rscale (x * g) d) (rscale (y * g) d'))).
      { unfold w. apply eq_by_dot. unfold along. vring. }
      transitivity (rscale (z * g) C); [|apply eq_by_dot; vring]. rewrite Ex, Ey, Ez. clear. unfold g, C, w.
      destruct o as [o1 [o2 [o3 []]]], o' as [p1 [p2 [p3 []]]], d as [d1 [d2 [d3 []]]], d' as [e1 [e2 [e3 []]]]. unfold rcross. cbn. repeat (apply f_equal2; [ring|]). reflexivity. }
    apply (f_equal (rscale (/ g))) in K. rewrite !rscale_scale in K. rewrite Rinv_l in K by lra. rewrite rscale_1 in K. rewrite K.
    f_equal. field. lra. }
  unfold rdist. rewrite E, rnorm_scale. fold w. unfold g. rewrite <- rnorm_sq. rewrite div_abs by (apply Rmult_lt_0_compat; exact C0). field. lra.
Qed.

(** difference of two unit vectors *)
Lemma unit_diff {n} (c C : vec R n) : 0 < rnorm c -> 0 < rnorm C ->
  rdist (rscale (/ rnorm c) c) (rscale (/ rnorm C) C) <= 2 * rdist c C / rnorm C.
Proof.
  intros Hc HC. set (a := rnorm c) in *. set (b := rnorm C) in *.
  eapply Rle_trans; [apply (rdist_triangle _ (rscale (/ b) c))|].
  assert (E1 : rdist (rscale (/ b) c) (rscale (/ b) C) = rdist c C / b).
  { unfold rdist. replace (rsub _ _) with (rscale (/ b) (rsub c C)) by (apply eq_by_dot; vring). rewrite rnorm_scale, Rabs_pos_eq by (left; apply Rinv_0_lt_compat, HC). field. lra. }
  assert (E2 : rdist (rscale (/ a) c) (rscale (/ b) c) = Rabs (b - a) / b).
  { unfold rdist. replace (rsub _ _) with (rscale (/ a - / b) c) by (apply eq_by_dot; vring). rewrite rnorm_scale. fold a.
    replace (/ a - / b) with ((b - a) / (a * b)) by (field; lra). rewrite div_abs by (apply Rmult_lt_0_compat; assumption). field. lra. }
  assert (K : Rabs (b - a) <= rdist c C).
  { apply Rabs_le. pose proof (rnorm_triangle C (rsub c C)) as Q1. rewrite radd_rsub in Q1. pose proof (rnorm_triangle c (rsub C c)) as Q2. rewrite radd_rsub in Q2.
    change (rnorm (rsub c C)) with (rdist c C) in Q1. change (rnorm (rsub C c)) with (rdist C c) in Q2. rewrite (rdist_sym C c) in Q2. unfold a, b. lra. }
  rewrite E1, E2. replace (2 * rdist c C / b) with (rdist c C / b + rdist c C / b) by (field; lra).
  apply Rplus_le_compat_r. apply Rmult_le_compat_r; [left; apply Rinv_0_lt_compat, HC|exact K].
Qed.

Section GAP.
Context {p e : Z} {Hp : Prec_gt_0 p} {He : Prec_lt_emax p e}.
Notation bf := (binary_float p e).
Notation u := (uround p).
Notation eta := (uflow p e).
Notation rnd := (rndf p e).
Notation zero := (B754_zero false : bf).
Context (fc fs fa : bf -> bf) (fpi : bf).
Let S := IEEE p e Hp He fc fs fa fpi.
Notation fadd := (@Bplus p e Hp He mode_NE).
Notation fsub := (@Bminus p e Hp He mode_NE).
Notation fmul := (@Bmult p e Hp He mode_NE).
Notation fdiv := (@Bdiv p e Hp He mode_NE).
Notation fsqrt := (@Bsqrt p e Hp He mode_NE).

(** ** The cross product *)
Lemma cross_err (a b : vec bf 3) : u <= 1 / 128 -> finite_pt a -> finite_pt b -> rnorm (vreal a) * rnorm (vreal b) <= bpow radix2 (e - 2) ->
  finite_pt (@cross S a b : vec bf 3) /\
  rdist (vreal (@cross S a b)) (rcross (vreal a) (vreal b)) <= 63 / 10 * (u * (rnorm (vreal a) * rnorm (vreal b))) + 63 / 10 * eta.
Proof.
  intros Hu1 Fa Fb HB. pose proof (@u_pos p) as Hu. pose proof (@eta_pos p e) as Hh. change (@ProofFloatErr.eta p e) with eta in Hh.
  destruct a as [a1 [a2 [a3 []]]], b as [b1 [b2 [b3 []]]].
  pose proof (Fa 0%nat ltac:(lia)) as A1. pose proof (Fa 1%nat ltac:(lia)) as A2. pose proof (Fa 2%nat ltac:(lia)) as A3.
  pose proof (Fb 0%nat ltac:(lia)) as B1. pose proof (Fb 1%nat ltac:(lia)) as B2. pose proof (Fb 2%nat ltac:(lia)) as B3. cbn in A1, A2, A3, B1, B2, B3.
  change (@vreal p e 3 (a1, (a2, (a3, tt)))) with (mk3 (B2R a1) (B2R a2) (B2R a3)) in *. change (@vreal p e 3 (b1, (b2, (b3, tt)))) with (mk3 (B2R b1) (B2R b2) (B2R b3)) in *.
  set (N := rnorm (mk3 (B2R a1) (B2R a2) (B2R a3)) * rnorm (mk3 (B2R b1) (B2R b2) (B2R b3))) in *.
  assert (two : forall x y z w s t, Rabs (x * w) + Rabs (y * z) <= rnorm (mk3 x y s) * rnorm (mk3 z w t)).
  { intros. rewrite !Rabs_mult. pose proof (absdot_norms 3 (mk3 x y s) (mk3 w z t)) as Q. 
    assert (E : rnorm (mk3 w z t) = rnorm (mk3 z w t)) by (unfold rnorm, mk3; f_equal; cbn; ring). rewrite E in Q.
    change (rdot _ _) with (Rabs x * Rabs w + (Rabs y * Rabs z + (Rabs s * Rabs t + 0))) in Q. pose proof (Rmult_le_pos _ _ (Rabs_pos s) (Rabs_pos t)). lra. }
  assert (perm1 : forall x y z, rnorm (mk3 y z x) = rnorm (mk3 x y z)) by (intros; unfold rnorm; f_equal; cbn; ring).
  assert (T1 : Rabs (B2R a2 * B2R b3) + Rabs (B2R a3 * B2R b2) <= N) by (unfold N; rewrite <- (perm1 (B2R a1)), <- (perm1 (B2R b1)); apply two).
  assert (T2 : Rabs (B2R a3 * B2R b1) + Rabs (B2R a1 * B2R b3) <= N) by (unfold N; rewrite (perm1 (B2R a3)), (perm1 (B2R b3)); apply two).
  assert (T3 : Rabs (B2R a1 * B2R b2) + Rabs (B2R a2 * B2R b1) <= N) by apply two.
  pose proof (det_ok a2 b3 a3 b2 Hu1 A2 B3 A3 B2 ltac:(lra)) as F1. pose proof (det_ok a3 b1 a1 b3 Hu1 A3 B1 A1 B3 ltac:(lra)) as F2. pose proof (det_ok a1 b2 a2 b1 Hu1 A1 B2 A2 B1 ltac:(lra)) as F3.
  pose proof (det_fin_err a2 b3 a3 b2 Hu1 F1) as E1. pose proof (det_fin_err a3 b1 a1 b3 Hu1 F2) as E2. pose proof (det_fin_err a1 b2 a2 b1 Hu1 F3) as E3.
  change (@cross S (a1, (a2, (a3, tt))) (b1, (b2, (b3, tt)))) with (mk3 (fsub (fmul a2 b3) (fmul a3 b2)) (fsub (fmul a3 b1) (fmul a1 b3)) (fsub (fmul a1 b2) (fmul a2 b1))).
  split; [intros [|[|[|i]]] Hi; try lia; assumption|].
  set (x1 := fsub (fmul a2 b3) (fmul a3 b2)) in *. set (x2 := fsub (fmul a3 b1) (fmul a1 b3)) in *. set (x3 := fsub (fmul a1 b2) (fmul a2 b1)) in *.
  change (vreal (mk3 x1 x2 x3)) with (mk3 (B2R x1) (B2R x2) (B2R x3)).
  unfold rdist. eapply Rle_trans; [apply (rnorm_errors 3 _ rzero 0 (21 / 10 * (u * N) + 21 / 10 * eta)); [lra| |]|].
  - assert (0 <= u * N) by (apply Rmult_le_pos; [lra|apply Rmult_le_pos; apply rnorm_nonneg]). lra.
  - intros i Hi. rewrite Rmult_0_l, Rplus_0_l.
    assert (U : forall z, z <= N -> 21 / 10 * (u * z) + 21 / 10 * eta <= 21 / 10 * (u * N) + 21 / 10 * eta) by (intros z Hz; assert (u * z <= u * N) by (apply Rmult_le_compat_l; lra); lra).
    destruct i as [|[|[|i]]]; [| | |lia]; cbn [vnth rsub rcross mk3 vmap2 fst snd].
    + eapply Rle_trans; [exact E1|]. apply U, T1.
    + eapply Rle_trans; [exact E2|]. apply U, T2.
    + eapply Rle_trans; [exact E3|]. apply U, T3.
  - rewrite Rmult_0_l, Rplus_0_l. cbn [INR]. lra.
Qed.

(** ** The distance of two lines *)
Section LL.
Context (Hu1 : 1024 * u <= 1) (Hpe : (2 * p <= e)%Z) (o o' d d' : vec bf 3).
Context (Fd : finite_pt d) (Fd' : finite_pt d') (Ud : unit_near p (vreal d)) (Ud' : unit_near p (vreal d')) (HR : in_reach o o').
Context (Hsk : clearly_skew p (vreal d) (vreal d')).
Let c := @cross S d d' : vec bf 3.
Let l := @vlength S 3 c : bf.
Let w := @vsub S 3 o o' : vec bf 3.
Let C := rcross (vreal d) (vreal d').
Let W := rsub (vreal o) (vreal o').
Let G := rdist (vreal o) (vreal o').
Let sn := sine (vreal d) (vreal d').
Let N := rnorm (vreal c).

Lemma ll_u : 0 < u <= 1 / 1024. Proof. pose proof (@u_pos p). pose proof Hu1. lra. Qed.
Lemma ll_lens : 1 - 12 * u <= rnorm (vreal d) * rnorm (vreal d') <= 1 + 121 / 10 * u.
Proof.
  pose proof ll_u as U. pose proof Ud as A. pose proof Ud' as B. unfold unit_near in A, B. apply Rabs_le_inv in A, B. set (L := rnorm (vreal d)) in *. set (M := rnorm (vreal d')) in *.
  assert (uu : 0 <= u * u <= 1 / 1024 * u) by (split; [apply Rmult_le_pos; lra|apply Rmult_le_compat_r; lra]).
  assert (P1 : (1 - 6 * u) * (1 - 6 * u) <= L * M) by (apply Rmult_le_compat; lra). assert (P2 : L * M <= (1 + 6 * u) * (1 + 6 * u)) by (apply Rmult_le_compat; lra). lra.
Qed.
Lemma ll_sine : 0 < sn <= 1 /\ rnorm C = rnorm (vreal d) * rnorm (vreal d') * sn /\ 306 * u <= sn.
Proof.
  pose proof ll_u as U. destruct ll_lens as (A & B). set (LM := rnorm (vreal d) * rnorm (vreal d')) in *. assert (LM0 : 0 < LM) by lra.
  assert (E : rnorm C = LM * sn) by (unfold sn, sine; fold LM C; field; lra).
  assert (s0 : 0 <= sn) by (unfold sn, sine; fold LM; apply Rmult_le_pos; [apply rnorm_nonneg|left; apply Rinv_0_lt_compat, LM0]).
  assert (s1 : sn <= 1) by (unfold sn, sine; fold LM; apply div_le; [exact LM0|]; rewrite Rmult_1_l; apply rcross_le).
  pose proof Hsk as K. unfold clearly_skew in K. fold sn in K.
  assert (s306 : 306 * u <= sn).
  { assert (Q : Rabs (306 * u) <= sn); [|rewrite Rabs_pos_eq in Q by lra; exact Q]. apply abs_le_of_sq; [exact s0|].
    assert (u * u <= 1 / 1024 * u) by (apply Rmult_le_compat_r; lra). lra. }
  split; [split; [lra|exact s1]|]. split; [exact E|exact s306].
Qed.
Lemma ll_eta : eta <= 4 * (u * (u * u)).
Proof.
  replace (4 * (u * (u * u))) with (bpow radix2 (2 - 3 * p)); [apply bpow_le; lia|]. unfold uround. change 4 with (bpow radix2 2). rewrite <- !bpow_plus. f_equal. lia.
Qed.
Lemma ll_eta' : 0 < eta <= 1 / 1000 * u /\ eta <= 1 / 1000 * (u * sn).
Proof.
  pose proof ll_u as U. pose proof ll_eta as E. destruct ll_sine as (s0 & _ & s306). split; [split; [apply bpow_gt_0|]|].
  - assert (u * u <= 1 / 1024 * (1 / 1024)) by (apply Rmult_le_compat; lra). assert (u * (u * u) <= u * (1 / 1024 * (1 / 1024))) by (apply Rmult_le_compat_l; lra). lra.
  - assert (u * u <= 1 / 1024 * (1 / 306 * sn)) by (apply Rmult_le_compat; lra). assert (u * (u * u) <= u * (1 / 1024 * (1 / 306 * sn))) by (apply Rmult_le_compat_l; lra).
    assert (0 < u * sn) by (apply Rmult_lt_0_compat; lra). lra.
Qed.
Lemma ll_cross : finite_pt c /\ rdist (vreal c) C <= 65 / 10 * u /\ 96 / 100 * sn <= rnorm C /\ 93 / 100 * sn <= N /\ Rabs (N - sn) <= 187 / 10 * u.
Proof.
  pose proof ll_u as U. destruct ll_lens as (A & B), ll_sine as (s0 & EC & s306). destruct ll_eta' as ((h0 & h1) & _).
  assert (Big : 2 <= bpow radix2 (e - 2)). { change 2 with (bpow radix2 1). apply bpow_le. assert (Hp0 : (0 < p)%Z) by exact Hp. assert (10 <= p)%Z; [|lia].
    assert (Q : u <= bpow radix2 (-10)) by (cbn; lra). apply le_bpow in Q. lia. }
  destruct (cross_err d d' ltac:(lra) Fd Fd' ltac:(lra)) as (Fc & Ec). fold S in Fc, Ec. fold c in Fc, Ec. fold C in Ec.
  set (LM := rnorm (vreal d) * rnorm (vreal d')) in *.
  assert (E1 : rdist (vreal c) C <= 65 / 10 * u). { assert (u * LM <= u * (102 / 100)) by (apply Rmult_le_compat_l; lra). lra. }
  split; [exact Fc|]. split; [exact E1|].
  assert (Q1 : 12 * u * sn <= 12 * u * 1) by (apply Rmult_le_compat_l; lra).
  assert (Q2 : (1 - 12 * u) * sn <= LM * sn) by (apply Rmult_le_compat_r; lra). assert (Q3 : LM * sn <= (1 + 121 / 10 * u) * sn) by (apply Rmult_le_compat_r; lra).
  assert (K : Rabs (N - rnorm C) <= 65 / 10 * u).
  { apply Rabs_le. pose proof (rnorm_triangle C (rsub (vreal c) C)) as T1. rewrite radd_rsub in T1. pose proof (rnorm_triangle (vreal c) (rsub C (vreal c))) as T2. rewrite radd_rsub in T2.
    change (rnorm (rsub (vreal c) C)) with (rdist (vreal c) C) in T1. change (rnorm (rsub C (vreal c))) with (rdist C (vreal c)) in T2. rewrite (rdist_sym C) in T2. fold N in T1, T2. lra. }
  apply Rabs_le_inv in K. rewrite EC in *. assert (0 <= u * sn <= u * 1) by (split; [apply Rmult_le_pos|apply Rmult_le_compat_l]; lra).
  split; [lra|]. split; [lra|]. apply Rabs_le. lra.
Qed.
Lemma ll_length : fin l /\ Rabs (B2R l - N) <= 5 * u * N /\ Rabs (B2R l - sn) <= 24 * u.
Proof.
  pose proof ll_u as U. destruct ll_sine as (s0 & _ & s306), ll_cross as (Fc & _ & _ & N0 & NS). pose proof ll_eta as h1. apply Rabs_le_inv in NS.
  assert (Big : 2 <= bpow radix2 (e - 2)). { change 2 with (bpow radix2 1). apply bpow_le. assert (Hp0 : (0 < p)%Z) by exact Hp. assert (10 <= p)%Z; [|lia].
    assert (Q : u <= bpow radix2 (-10)) by (cbn; lra). apply le_bpow in Q. lia. }
  assert (NN : N * N <= 102 / 100 * (102 / 100)) by (apply Rmult_le_compat; lra).
  destruct (length_abs_err fc fs fa fpi 3 c ltac:(cbn; lra) Fc ltac:(fold N; lra)) as (Fl & l0 & El). fold S in Fl, l0, El. fold l N in Fl, l0, El. change (@ProofFloatErr.eta p e) with eta in El.
  split; [exact Fl|].
  assert (SQ : sqrt (INR 3 * eta) <= 4 / 10 * (u * sn)).
  { assert (0 <= u * sn) by (apply Rmult_le_pos; lra). rewrite <- (sqrt_square (4 / 10 * (u * sn))) by lra. apply sqrt_le_1_alt. replace (INR 3) with 3 by (cbn; ring).
    pose proof Hsk as K. unfold clearly_skew in K. fold sn in K. assert (u * u * (92 * u) <= u * u * (sn * sn)) by (apply Rmult_le_compat_l; [apply Rmult_le_pos; lra|exact K]).
    assert (0 <= u * u * u) by (repeat apply Rmult_le_pos; lra). lra. }
  assert (uN : u * (93 / 100 * sn) <= u * N) by (apply Rmult_le_compat_l; lra).
  assert (E2 : Rabs (B2R l - N) <= 5 * u * N). { eapply Rle_trans; [exact El|]. replace (INR 3) with 3 by (cbn; ring). replace (INR 3) with 3 in SQ by (cbn; ring). assert (0 <= u * N) by (apply Rmult_le_pos; lra). lra. }
  split; [exact E2|]. assert (u * N <= u * (102 / 100)) by (apply Rmult_le_compat_l; lra). apply Rabs_le_inv in E2. apply Rabs_le. lra.
Qed.
Lemma ll_result : fin (fdiv (@dot S 3 w c) l) /\ Rabs (B2R (fdiv (@dot S 3 w c) l) - rdot W C / rnorm C) <= line_gap_bound p e (vreal o) (vreal d) (vreal o') (vreal d').
Proof.
  pose proof ll_u as U. destruct ll_sine as (s0 & _ & s306), ll_cross as (Fc & Ec & C0 & N0 & NS), ll_length as (Fl & El & _). destruct ll_eta' as ((h0 & h1) & h2).
  assert (G0 : 0 <= G) by apply rnorm_nonneg. apply Rabs_le_inv in NS.
  assert (Hp10 : (10 <= p)%Z) by (assert (Q : u <= bpow radix2 (-10)) by (cbn; lra); apply le_bpow in Q; lia).
  destruct (sub_reach fc fs fa fpi 3 o o' ltac:(cbn; lra) HR) as (Fw & _ & Ew & _). fold S in Fw, Ew. fold w in Fw, Ew. fold W G in Ew.
  assert (Gb : G <= bpow radix2 (e - 4)).
  { destruct HR as (_ & _ & Q). fold G in Q. destruct (Rle_lt_dec G 1) as [K|K]; [apply Rle_trans with 1; [exact K|]; change 1 with (bpow radix2 0); apply bpow_le; lia|].
    assert (1 * G <= G * G) by (apply Rmult_le_compat_r; lra). lra. }
  assert (E4 : bpow radix2 (e - 2) = 4 * bpow radix2 (e - 4)) by (replace (e - 2)%Z with (2 + (e - 4))%Z by lia; rewrite bpow_plus; reflexivity).
  assert (E1 : bpow radix2 (e - 1) = 8 * bpow radix2 (e - 4)) by (replace (e - 1)%Z with (3 + (e - 4))%Z by lia; rewrite bpow_plus; reflexivity).
  assert (B0 : 1 <= bpow radix2 (e - 4)) by (change 1 with (bpow radix2 0); apply bpow_le; lia).
  assert (Nw : rnorm (vreal w) <= (1 + u) * G). { pose proof (rnorm_triangle W (rsub (vreal w) W)) as T1. rewrite radd_rsub in T1. change (rnorm (rsub (vreal w) W)) with (rdist (vreal w) W) in T1. change (rnorm W) with G in T1. lra. }
  assert (uG : 0 <= u * G <= 1 / 1024 * G) by (split; [apply Rmult_le_pos; lra|apply Rmult_le_compat_r; lra]).
  assert (NwN : rnorm (vreal w) * N <= 101 / 100 * (G * N)) by (rewrite <- Rmult_assoc; apply Rmult_le_compat_r; lra).
  assert (GN : 0 <= G * N <= 102 / 100 * G) by (split; [apply Rmult_le_pos; lra|rewrite (Rmult_comm (102 / 100)); apply Rmult_le_compat_l; lra]).
  set (dt := @dot S 3 w c : bf).
  assert (Fdt : fin dt). { apply (dot_err fc fs fa fpi 3 w c ltac:(cbn; lra) Fw Fc). eapply Rle_trans; [apply absdot_norms|]. fold N. lra. }
  pose proof (dot3_err fc fs fa fpi w c ltac:(lra) Fdt) as Edt. fold S in Edt. fold dt N in Edt. change (@ProofFloatErr.eta p e) with eta in Edt.
  set (z := rdot W (vreal c)).
  assert (Ez : Rabs (rdot (vreal w) (vreal c) - z) <= u * (G * N)). { unfold z. rewrite <- rdot_sub_l. eapply Rle_trans; [apply cauchy_schwarz|]. fold N. rewrite <- Rmult_assoc. apply Rmult_le_compat_r; [lra|exact Ew]. }
  assert (Bz : Rabs z <= G * N) by (unfold z; apply cauchy_schwarz).
  assert (uGN : 0 <= u * (G * N) <= 1 / 1024 * (G * N)) by (split; [apply Rmult_le_pos; lra|apply Rmult_le_compat_r; lra]).
  assert (Edz : Rabs (B2R dt - z) <= 53 / 10 * (u * (G * N)) + 32 / 10 * eta).
  { assert (u * (rnorm (vreal w) * N) <= u * (101 / 100 * (G * N))) by (apply Rmult_le_compat_l; lra). apply Rabs_le_inv in Edt, Ez. apply Rabs_le. lra. }
  apply Rabs_le_inv in El. assert (uN : 0 <= u * N <= 1 / 1024 * N) by (split; [apply Rmult_le_pos; lra|apply Rmult_le_compat_r; lra]).
  set (L := B2R l) in *. assert (L0 : 99 / 100 * N <= L) by lra. assert (Lp : 0 < L) by lra.
  set (q := B2R dt / L).
  (* the quotient *)
  assert (Eq : Rabs (q - z / N) * N <= 104 / 10 * (u * (G * N)) + 325 / 100 * eta).
  { assert (K : Rabs (q - z / N) * N * L <= (104 / 10 * (u * (G * N)) + 325 / 100 * eta) * L); [|apply Rmult_le_reg_r with L; [exact Lp|exact K]].
    replace (Rabs (q - z / N) * N * L) with (Rabs ((B2R dt - z) * N + z * (N - L))).
    2:{ replace ((B2R dt - z) * N + z * (N - L)) with ((q - z / N) * (N * L)) by (unfold q; field; lra). rewrite Rabs_mult, (Rabs_pos_eq (N * L)) by (apply Rmult_le_pos; lra). ring. }
    eapply Rle_trans; [apply Rabs_triang|]. rewrite !Rabs_mult, (Rabs_pos_eq N) by lra.
    assert (K1 : Rabs (B2R dt - z) * N <= (53 / 10 * (u * (G * N)) + 32 / 10 * eta) * N) by (apply Rmult_le_compat_r; lra).
    assert (K2 : Rabs z * Rabs (N - L) <= G * N * (5 * u * N)) by (apply Rmult_le_compat; [apply Rabs_pos|apply Rabs_pos|exact Bz|apply Rabs_le; lra]).
    set (y := u * (G * N)) in *. assert (y0 : 0 <= y) by lra.
    assert (K3 : (1 - 5 * u) * N <= L) by lra. assert (K4 : (104 / 10 * y + 325 / 100 * eta) * ((1 - 5 * u) * N) <= (104 / 10 * y + 325 / 100 * eta) * L) by (apply Rmult_le_compat_l; lra).
    assert (K5 : 0 <= y * N) by (apply Rmult_le_pos; lra). assert (K6 : 0 <= eta * N) by (apply Rmult_le_pos; lra).
    assert (K7 : u * (y * N) <= 1 / 1024 * (y * N)) by (apply Rmult_le_compat_r; lra). assert (K8 : u * (eta * N) <= 1 / 1024 * (eta * N)) by (apply Rmult_le_compat_r; lra).
    replace (G * N * (5 * u * N)) with (5 * (y * N)) in K2 by (unfold y; ring). lra. }
  assert (zN : Rabs (z / N) <= G). { rewrite div_abs by lra. apply div_le; [lra|exact Bz]. }
  assert (HN : eta <= 1 / 100 * (u * N)). { assert (u * (93 / 100 * sn) <= u * N) by (apply Rmult_le_compat_l; lra). lra. }
  assert (Eq' : Rabs (q - z / N) <= 104 / 10 * (u * G) + 4 / 100 * u).
  { apply Rmult_le_reg_r with N; [lra|]. eapply Rle_trans; [exact Eq|]. lra. }
  assert (Bq : Rabs q <= 103 / 100 * G + u). { replace q with (z / N + (q - z / N)) by ring. eapply Rle_trans; [apply Rabs_triang|]. lra. }
  assert (Bq' : Rabs (B2R dt / B2R l) <= bpow radix2 (e - 1)) by (change (Rabs q <= bpow radix2 (e - 1)); lra).
  assert (Ln : B2R l <> 0) by (apply Rgt_not_eq; exact Lp).
  destruct (div_ok dt l Fdt Ln (rnd_small _ Bq')) as (Fx & Ex). split; [exact Fx|]. rewrite Ex. fold L q.
  pose proof (@rnd_near p e Hp q) as Rq. change (@ProofFloatErr.eta p e) with eta in Rq.
  (* the unit vector *)
  assert (CC : 0 < rnorm C) by lra. pose proof (unit_diff (vreal c) C ltac:(fold N; lra) CC) as UD. fold N in UD.
  assert (EV : Rabs (z / N - rdot W C / rnorm C) * sn <= 136 / 10 * (u * G)).
  { replace (z / N - rdot W C / rnorm C) with (rdot W (rsub (rscale (/ N) (vreal c)) (rscale (/ rnorm C) C))).
    2:{ unfold z, Rdiv. rewrite (Rmult_comm (rdot W (vreal c))), (Rmult_comm (rdot W C)). vring. }
    assert (K1 : Rabs (rdot W (rsub (rscale (/ N) (vreal c)) (rscale (/ rnorm C) C))) <= G * (2 * rdist (vreal c) C / rnorm C)).
    { eapply Rle_trans; [apply cauchy_schwarz|]. change (rnorm W) with G. apply Rmult_le_compat_l; [exact G0|exact UD]. }
    assert (K2 : 2 * rdist (vreal c) C / rnorm C * sn <= 136 / 10 * u).
    { apply Rmult_le_reg_r with (rnorm C); [exact CC|]. replace (2 * rdist (vreal c) C / rnorm C * sn * rnorm C) with (2 * rdist (vreal c) C * sn) by (field; lra).
      assert (2 * rdist (vreal c) C * sn <= 13 * u * sn) by (apply Rmult_le_compat_r; lra).
      assert (136 / 10 * u * (96 / 100 * sn) <= 136 / 10 * u * rnorm C) by (apply Rmult_le_compat_l; lra). assert (0 <= u * sn) by (apply Rmult_le_pos; lra). lra. }
    assert (K3 : Rabs (rdot W (rsub (rscale (/ N) (vreal c)) (rscale (/ rnorm C) C))) * sn <= G * (2 * rdist (vreal c) C / rnorm C) * sn) by (apply Rmult_le_compat_r; lra).
    assert (K4 : G * (2 * rdist (vreal c) C / rnorm C * sn) <= G * (136 / 10 * u)) by (apply Rmult_le_compat_l; lra). lra. }
  unfold line_gap_bound. fold G sn. apply Rmult_le_reg_r with sn; [lra|]. replace ((40 * u * G + 5 * eta) / sn * sn) with (40 * u * G + 5 * eta) by (field; lra).
  replace (rnd q - rdot W C / rnorm C) with ((rnd q - q) + ((q - z / N) + (z / N - rdot W C / rnorm C))) by ring.
  set (a := Rabs (q - z / N)) in *. set (b := z / N - rdot W C / rnorm C) in *.
  apply Rle_trans with ((Rabs (rnd q - q) + (a + Rabs b)) * sn).
  { apply Rmult_le_compat_r; [lra|]. eapply Rle_trans; [apply Rabs_triang|]. apply Rplus_le_compat_l, Rabs_triang. }
  assert (Ka : a * (93 / 100 * sn) <= a * N) by (apply Rmult_le_compat_l; [apply Rabs_pos|lra]).
  assert (Kr : Rabs (rnd q - q) * sn <= (u * Rabs q + eta) * sn) by (apply Rmult_le_compat_r; lra).
  assert (uq : u * Rabs q <= u * (103 / 100 * G + u)) by (apply Rmult_le_compat_l; lra).
  (* the rounding of the quotient, weighed with the length *)
  assert (aq : Rabs q * N <= 103 / 100 * (G * N) + 4 * eta).
  { assert (Rabs q <= Rabs (z / N) + a). { replace q with (z / N + (q - z / N)) at 1 by ring. apply Rabs_triang. }
    assert (Rabs q * N <= (Rabs (z / N) + a) * N) by (apply Rmult_le_compat_r; lra). assert (Rabs (z / N) * N <= G * N) by (apply Rmult_le_compat_r; lra). lra. }
  assert (uqN : u * (Rabs q * N) <= u * (103 / 100 * (G * N) + 4 * eta)) by (apply Rmult_le_compat_l; lra).
  assert (uqs : u * Rabs q * (93 / 100 * sn) <= u * Rabs q * N) by (apply Rmult_le_compat_l; [apply Rmult_le_pos; [lra|apply Rabs_pos]|lra]).
  assert (ue : u * eta <= 1 / 1024 * eta) by (apply Rmult_le_compat_r; lra). assert (es : eta * sn <= eta * 1) by (apply Rmult_le_compat_l; lra).
  assert (uGN' : u * (G * N) <= 102 / 100 * (u * G)) by (replace (102 / 100 * (u * G)) with (u * (102 / 100 * G)) by ring; apply Rmult_le_compat_l; lra).
  lra.
Qed.
End LL.
(** ** Lengths known to be finite, in the plane and in space *)
Lemma dotn_err n (a b : vec bf n) : (n <= 3)%nat -> 4 * u <= 1 / 32 -> fin (@dot S n a b) ->
  Rabs (B2R (@dot S n a b : bf) - rdot (vreal a) (vreal b)) <= 42 / 10 * u * (rnorm (vreal a) * rnorm (vreal b)) + 32 / 10 * eta.
Proof.
  intros Hn3 Hn F. pose proof (@u_pos p) as Hu. pose proof (@eta_pos p e) as Hh. change (@ProofFloatErr.eta p e) with eta in Hh. eapply Rle_trans; [apply (dot_fin_err fc fs fa fpi n a b F)|]. change (@ProofFloatErr.eta p e) with eta.
  pose proof (absdot_nonneg n (vreal a) (vreal b)) as M0. pose proof (absdot_norms n (vreal a) (vreal b)) as M1.
  assert (P4 : (1 + u) ^ (3 + 1) - 1 <= 42 / 10 * u) by (eapply Rle_trans; [apply pow_1_plus_32; cbn; lra|]; cbn; lra).
  assert (P4' : (1 + u) ^ (n + 1) <= (1 + u) ^ (3 + 1)) by (apply Rle_pow; [lra|lia]).
  assert (P3 : (1 + u) ^ 3 <= 32 / 30).
  { assert (Q : (1 + u) ^ 3 - 1 <= 32 / 31 * (INR 3 * u)) by (apply pow_1_plus_32; cbn; lra). cbn [INR] in Q. lra. }
  assert (P3' : (1 + u) ^ n <= (1 + u) ^ 3) by (apply Rle_pow; [lra|lia]).
  assert (I3 : INR n <= 3) by (apply (le_INR n 3) in Hn3; cbn in Hn3; lra). pose proof (pos_INR n) as I0.
  apply Rplus_le_compat.
  - eapply Rle_trans; [apply Rmult_le_compat_r; [exact M0|]; apply Rle_trans with (42 / 10 * u); [lra|apply Rle_refl]|]. apply Rmult_le_compat_l; [lra|exact M1].
  - apply Rmult_le_compat_r; [lra|]. apply Rle_trans with (3 * (32 / 30)); [|lra]. apply Rmult_le_compat; try lra. apply pow_le. lra.
Qed.
Lemma length_fin_n n (v : vec bf n) : (n <= 3)%nat -> u <= 1 / 1024 -> fin (@vlength S n v) ->
  finite_pt v /\ 0 <= B2R (@vlength S n v : bf) /\ rnorm (vreal v) <= (1 + 5 * u) * B2R (@vlength S n v : bf) + 2 * sqrt eta.
Proof.
  intros Hn Hu1 F. pose proof (@u_pos p) as Hu. pose proof (@eta_pos p e) as Hh. change (@ProofFloatErr.eta p e) with eta in Hh. set (D := @dot S n v v : bf) in *. change (@vlength S n v) with (fsqrt D) in *.
  assert (FD : fin D) by (destruct D as [|[]| |[] ? ? ?]; try reflexivity; discriminate F).
  assert (D0 : 0 <= B2R D). { destruct D as [|[]| |[] m x Hx]; try discriminate F; try (cbn; lra). apply F2R_ge_0. cbn. lia. }
  destruct (dot_fin fc fs fa fpi n v v FD) as (Fv & _). split; [exact Fv|].
  pose proof (dotn_err n v v Hn ltac:(lra) FD) as E. change (@ProofFloatErr.eta p e) with eta in E. fold S in E. change (@dot S n v v) with D in E.
  set (N := rnorm (vreal v)) in *. assert (N0 : 0 <= N) by apply rnorm_nonneg. rewrite <- (rnorm_sq (vreal v)) in E. fold N in E.
  assert (L : 0 <= B2R (fsqrt D) /\ sqrt (B2R D) * (1 - u) <= B2R (fsqrt D)).
  { destruct D0 as [D0|D0].
    - destruct (sqrt_n D 1 ltac:(lra) FD D0) as (_ & P & Q). rewrite !Rmult_1_r in Q. unfold Rdiv in Q. rewrite Rinv_1, !Rmult_1_r in Q. split; [exact P|]. apply Rabs_le_inv in Q. lra.
    - destruct D as [s|[]| |[] m x Hx]; try discriminate F; [cbn; rewrite sqrt_0; lra|]. exfalso. cbn in D0. assert (0 < F2R (Float radix2 (Z.pos m) x)) by (apply F2R_gt_0; cbn; lia). unfold F2R in *. cbn in *. lra. }
  destruct L as (l0 & L). split; [exact l0|]. set (l := B2R (fsqrt D)) in *. set (sd := sqrt (B2R D)) in *. set (h := sqrt eta).
  assert (sd0 : 0 <= sd) by apply sqrt_pos. assert (h0 : 0 <= h) by apply sqrt_pos. assert (sd2 : sd * sd = B2R D) by (apply sqrt_sqrt; exact D0). assert (h2 : h * h = eta) by (apply sqrt_sqrt; lra).
  assert (NN : N * N * (1 - 42 / 10 * u) <= sd * sd + 32 / 10 * (h * h)) by (rewrite sd2, h2; apply Rabs_le_inv in E; lra).
  assert (K : N <= (1 + 3 * u) * (sd + 18 / 10 * h)).
  { assert (Q : Rabs N <= (1 + 3 * u) * (sd + 18 / 10 * h)); [|rewrite Rabs_pos_eq in Q by exact N0; exact Q].
    apply abs_le_of_sq; [apply Rmult_le_pos; lra|]. apply Rmult_le_reg_r with (1 - 42 / 10 * u); [lra|]. eapply Rle_trans; [exact NN|].
    set (y := sd + 18 / 10 * h). assert (y2 : sd * sd + 32 / 10 * (h * h) <= y * y). { assert (0 <= sd * h) by (apply Rmult_le_pos; assumption). assert (0 <= h * h) by (apply Rmult_le_pos; assumption). unfold y. lra. }
    assert (c : 1 <= (1 + 3 * u) * (1 + 3 * u) * (1 - 42 / 10 * u)). { assert (u * u <= 1 / 1024 * u) by (apply Rmult_le_compat_r; lra). assert (0 <= u * u) by (apply Rmult_le_pos; lra). assert (u * (u * u) <= u * (1 / 1024 * u)) by (apply Rmult_le_compat_l; lra). lra. }
    assert (1 * (y * y) <= (1 + 3 * u) * (1 + 3 * u) * (1 - 42 / 10 * u) * (y * y)) by (apply Rmult_le_compat_r; [apply Rle_0_sqr|exact c]). lra. }
  assert (K2 : (1 + 3 * u) * sd <= (1 + 5 * u) * l).
  { assert (Q : (1 + 5 * u) * (sd * (1 - u)) <= (1 + 5 * u) * l) by (apply Rmult_le_compat_l; lra). assert (u * u * sd <= 1 / 1024 * u * sd) by (apply Rmult_le_compat_r; [exact sd0|apply Rmult_le_compat_r; lra]).
    assert (0 <= u * sd) by (apply Rmult_le_pos; lra). lra. }
  assert (u * h <= 1 / 1024 * h) by (apply Rmult_le_compat_r; lra). lra.
Qed.
Lemma distance_fin_n n (a b : vec bf n) : (n <= 3)%nat -> u <= 1 / 1024 -> fin (@vlength S n (@vsub S n a b)) ->
  finite_pt a /\ finite_pt b /\ rdist (vreal a) (vreal b) <= (1 + 7 * u) * B2R (@vlength S n (@vsub S n a b) : bf) + 3 * sqrt eta.
Proof.
  intros Hn Hu1 F. pose proof (@u_pos p) as Hu. destruct (length_fin_n n _ Hn Hu1 F) as (Fv & l0 & K). set (l := B2R (@vlength S n (@vsub S n a b) : bf)) in *.
  assert (Fab : finite_pt a /\ finite_pt b).
  { assert (Q : forall i, (i < n)%nat -> fin (vnth (B754_zero false) i a) /\ fin (vnth (B754_zero false) i b)).
    { intros i Hi. specialize (Fv i Hi). unfold vsub in Fv. rewrite (vnth_vmap2 (B754_zero false : bf) (B754_zero false : bf)) in Fv by exact Hi. apply sub_fin in Fv as (? & ? & _). split; assumption. }
    split; intros i Hi; apply (Q i Hi). }
  destruct Fab as (Fa & Fb). split; [exact Fa|]. split; [exact Fb|].
  pose proof (sub_err fc fs fa fpi n a b Fa Fb Fv) as E. fold S in E. set (c := vreal (@vsub S n a b : vec bf n)) in *. set (r := rdist (vreal a) (vreal b)) in *.
  assert (T : r <= rnorm c + u * r).
  { unfold r at 1. unfold rdist. replace (rsub (vreal a) (vreal b)) with (radd c (rsub (rsub (vreal a) (vreal b)) c)) by apply radd_rsub.
    eapply Rle_trans; [apply rnorm_triangle|]. change (rnorm (rsub (rsub (vreal a) (vreal b)) c)) with (rdist (rsub (vreal a) (vreal b)) c). rewrite rdist_sym. lra. }
  set (h := sqrt eta) in *. assert (h0 : 0 <= h) by apply sqrt_pos.
  apply Rmult_le_reg_r with (1 - u); [lra|].
  assert (u * u * l <= 1 / 1024 * u * l) by (apply Rmult_le_compat_r; [exact l0|apply Rmult_le_compat_r; lra]). assert (0 <= u * l) by (apply Rmult_le_pos; lra).
  assert (u * h <= 1 / 1024 * h) by (apply Rmult_le_compat_r; lra). lra.
Qed.

End GAP.
