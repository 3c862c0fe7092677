(** * Property theorems: extent of points along a direction in floating point (C85) *)

From Coq Require Import List Arith Bool Lia Reals Lra ZArith.
From Flocq Require Import Core BinarySingleNaN.
From Verif Require Import Scalar Linal Result SpecReal VecR VecLemmas SpecBox SpecIEEE SpecFloatErr ModelBox
  ProofRound ProofIEEE ProofBoxIEEE ProofFloatErr ProofFloatDist ProofFloatLine PropFloatTess PropMeshIEEE PropWeld.
Import ListNotations.
Local Open Scope R_scope.

Lemma extreme_runs (S : Scalar) (L : Linal S) dbg n (dir : vec S n) pts : (dbg = true -> isEq L (leps L) (vlength dir) s1 = true) -> pts <> [] ->
  extreme_points L dbg dir pts = Ok (fold_left (extreme_step dir) pts (smax, slowest)).
Proof.
  intros Hd Hne. unfold extreme_points. destruct pts as [|q pts]; [contradiction|]. destruct dbg; [|reflexivity].
  cbn [geo_assert bind]. rewrite (Hd eq_refl). reflexivity.
Qed.

Section Extent.
  Context {p e : Z} {Hp : Prec_gt_0 p} {He : Prec_lt_emax p e}.
  Notation bf := (binary_float p e).
  Context (fc fs fa : bf -> bf) (fpi : bf).
  Notation S := (IEEE p e Hp He fc fs fa fpi).

  (** two of the computed projections which bound all of them *)
  Definition proj_ok {A} (D : A -> bf) (pts : list A) (mm : bf * bf) : Prop :=
    is_finite (fst mm) = true /\ is_finite (snd mm) = true /\
    (forall q, In q pts -> B2R (fst mm) <= B2R (D q) <= B2R (snd mm)) /\
    ((pts = [] /\ mm = (@Bmax_float p e Hp He, Bopp (@Bmax_float p e Hp He))) \/
     (exists q, In q pts /\ B2R (D q) = B2R (fst mm)) /\ (exists q, In q pts /\ B2R (D q) = B2R (snd mm))).
  Lemma proj_step {A} (D : A -> bf) (pts : list A) (m0 : bf * bf) (q : A) : proj_ok D pts m0 -> is_finite (D q) = true ->
    proj_ok D (pts ++ [q]) (if Bltb (D q) (fst m0) then D q else fst m0, if Bltb (snd m0) (D q) then D q else snd m0).
  Proof.
    intros (F1 & F2 & Hb & Hw) Fd. destruct (step_bounds m0 (D q) F1 F2 Fd) as (G1 & G2 & G3 & G4).
    unfold proj_ok. cbn [fst snd]. split; [exact G1|]. split; [exact G2|]. rewrite G3, G4. split.
    - intros q' Hq. apply in_app_or in Hq as [Hq|[<-|[]]].
      + specialize (Hb q' Hq). pose proof (Rmin_r (B2R (D q)) (B2R (fst m0))). pose proof (Rmax_r (B2R (D q)) (B2R (snd m0))). lra.
      + split; [apply Rmin_l|apply Rmax_l].
    - right. destruct Hw as [(-> & Hn)|((q1 & H1 & E1) & (q2 & H2 & E2))].
      + rewrite Hn. cbn [fst snd]. pose proof (@max_ge p e Hp He (D q)) as Hm. split; exists q; (split; [left; reflexivity|]).
        * rewrite Rmin_left; [reflexivity|]. exact (proj2 Hm).
        * rewrite Rmax_left; [reflexivity|]. rewrite B2R_Bopp. exact (proj1 Hm).
      + split.
        * unfold Rmin. destruct (Rle_dec (B2R (D q)) (B2R (fst m0))).
          -- exists q. split; [apply in_or_app; right; left; reflexivity|reflexivity].
          -- exists q1. split; [apply in_or_app; left; exact H1|exact E1].
        * unfold Rmax. destruct (Rle_dec (B2R (D q)) (B2R (snd m0))).
          -- exists q2. split; [apply in_or_app; left; exact H2|exact E2].
          -- exists q. split; [apply in_or_app; right; left; reflexivity|reflexivity].
  Qed.
  Lemma proj_near {A} (D : A -> bf) (G : A -> R) (pts : list A) (mm : bf * bf) (err : R) : proj_ok D pts mm -> pts <> [] ->
    (forall q, In q pts -> Rabs (B2R (D q) - G q) <= err) ->
    is_finite (fst mm) = true /\ is_finite (snd mm) = true /\ B2R (fst mm) <= B2R (snd mm) /\
    (forall m, is_min (map G pts) m -> Rabs (B2R (fst mm) - m) <= err) /\ (forall m, is_max (map G pts) m -> Rabs (B2R (snd mm) - m) <= err).
  Proof.
    intros (F1 & F2 & Hb & Hw) Hne HD. destruct Hw as [(E & _)|((q1 & I1 & E1) & (q2 & I2 & E2))]; [contradiction|].
    split; [exact F1|]. split; [exact F2|]. split; [pose proof (Hb q1 I1); lra|]. split.
    - intros m (Im & Lm). apply in_map_iff in Im as (q & <- & Iq). pose proof (HD q Iq) as Eq. pose proof (HD q1 I1) as Eq1.
      specialize (Lm (G q1) ltac:(apply in_map_iff; exists q1; auto)). pose proof (Hb q Iq) as Bq.
      apply Rabs_le_inv in Eq, Eq1. apply Rabs_le. lra.
    - intros m (Im & Lm). apply in_map_iff in Im as (q & <- & Iq). pose proof (HD q Iq) as Eq. pose proof (HD q2 I2) as Eq2.
      specialize (Lm (G q2) ltac:(apply in_map_iff; exists q2; auto)). pose proof (Hb q Iq) as Bq.
      apply Rabs_le_inv in Eq, Eq2. apply Rabs_le. lra.
  Qed.
  Lemma proj_covers {A} (D : A -> bf) (pts : list A) (mm : bf * bf) (q : A) (G err : R) : proj_ok D pts mm -> In q pts -> Rabs (B2R (D q) - G) <= err ->
    B2R (fst mm) - err <= G <= B2R (snd mm) + err.
  Proof. intros (_ & _ & Hb & _) Iq E. specialize (Hb q Iq). apply Rabs_le_inv in E. lra. Qed.
  Lemma extent_fold n (dir : vec bf n) (pts : list (vec bf n)) :
    (forall q, In q pts -> is_finite (@dot S n q dir : bf) = true) ->
    proj_ok (fun q => @dot S n q dir) pts (fold_left (@extreme_step S n dir) pts (@smax S, @slowest S)).
  Proof.
    destruct (@max_spec p e Hp He) as (Fm & _).
    induction pts as [|q pts IH] using rev_ind; intros Hf.
    - split; [exact Fm|]. split; [exact (eq_trans (is_finite_Bopp _ _ _) Fm)|]. split; [intros q []|left; split; reflexivity].
    - rewrite fold_left_app. cbn [fold_left]. apply (proj_step (fun q => @dot S n q dir) pts _ q).
      + apply IH. intros q' Hq. apply Hf, in_or_app. left. exact Hq.
      + apply Hf, in_or_app. right. left. reflexivity.
  Qed.
End Extent.

(** ** C85: extreme_points_along_direction.  For finite points at distance at most [B]
    from the origin and a finite direction, the returned limits are finite, in order,
    and differ from the least and largest exact projection at most by the rounding
    error of one projection.  In debug builds the assertion about the length of the
    direction has to hold. *)
Theorem C85_extent :
  forall (p e : Z) (Hp : Prec_gt_0 p) (He : Prec_lt_emax p e) f g h pi, let S := IEEE p e Hp He f g h pi in
  forall (L : Linal S) (dbg : bool) (n : nat) (dir : vec (binary_float p e) n) (pts : list (vec (binary_float p e) n)) (B : R),
    (INR n + 1) * uround p <= 1 / 32 -> (dbg = true -> isEq L (leps L) (@vlength S n dir) s1 = true) ->
    pts <> [] -> finite_pt dir -> (forall q, In q pts -> finite_pt q /\ rnorm (vreal q) <= B) ->
    B * rnorm (vreal dir) <= bpow radix2 (e - 2) ->
    let err := 32 / 31 * ((INR n + 1) * uround p * (B * rnorm (vreal dir)) + INR n * uflow p e) in
    exists mn mx : binary_float p e, @extreme_points S L dbg n dir pts = Ok (mn, mx) /\
      is_finite mn = true /\ is_finite mx = true /\ B2R mn <= B2R mx /\
      (forall m, is_min (map (fun q => rdot (vreal q) (vreal dir)) pts) m -> Rabs (B2R mn - m) <= err) /\
      (forall m, is_max (map (fun q => rdot (vreal q) (vreal dir)) pts) m -> Rabs (B2R mx - m) <= err).
Proof.
  intros p e Hp He f g h pi S L dbg n dir pts B Hn Hd Hne Fd Hpts HB err.
  assert (D : forall q, In q pts -> is_finite (@dot S n q dir : binary_float p e) = true /\
    Rabs (B2R (@dot S n q dir : binary_float p e) - rdot (vreal q) (vreal dir)) <= err).
  { intros q Hq. destruct (Hpts q Hq) as (Fq & Bq). pose proof (rnorm_nonneg (vreal dir)) as N0.
    assert (Bd : rnorm (vreal q) * rnorm (vreal dir) <= B * rnorm (vreal dir)) by (apply Rmult_le_compat_r; assumption).
    destruct (dot_err2 f g h pi n q dir Hn Fq Fd ltac:(lra)) as (F & E). split; [exact F|]. eapply Rle_trans; [exact E|].
    unfold err. rewrite Rmult_plus_distr_l. apply Rplus_le_compat; [|right; reflexivity].
    rewrite Rmult_assoc. apply Rmult_le_compat_l; [lra|]. apply Rmult_le_compat_l; [|exact Bd].
    pose proof (pos_INR n). pose proof (@u_pos p). nra. }
  pose proof (extent_fold f g h pi n dir pts (fun q Hq => proj1 (D q Hq))) as K.
  rewrite (extreme_runs S L dbg n dir pts Hd Hne).
  set (mm := fold_left (@extreme_step S n dir) pts (@smax S, @slowest S)) in *.
  exists (fst mm), (snd mm). split; [now rewrite <- surjective_pairing|].
  exact (proj_near _ (fun q => rdot (vreal q) (vreal dir)) pts mm err K Hne (fun q Hq => proj2 (D q Hq))).
Qed.
Print Assumptions C85_extent.

(** Every point lies between the limits, up to the same error. *)
Theorem C85_covers :
  forall (p e : Z) (Hp : Prec_gt_0 p) (He : Prec_lt_emax p e) f g h pi, let S := IEEE p e Hp He f g h pi in
  forall (L : Linal S) (dbg : bool) (n : nat) (dir : vec (binary_float p e) n) (pts : list (vec (binary_float p e) n)) (mn mx : binary_float p e),
    (INR n + 1) * uround p <= 1 / 32 -> finite_pt dir -> (forall q, In q pts -> finite_pt q) ->
    (forall q, In q pts -> rnorm (vreal q) * rnorm (vreal dir) <= bpow radix2 (e - 2)) ->
    @extreme_points S L dbg n dir pts = Ok (mn, mx) ->
    forall q, In q pts ->
      let err := 32 / 31 * ((INR n + 1) * uround p * (rnorm (vreal q) * rnorm (vreal dir)) + INR n * uflow p e) in
      B2R mn - err <= rdot (vreal q) (vreal dir) <= B2R mx + err.
Proof.
  intros p e Hp He f g h pi S L dbg n dir pts mn mx Hn Fd Fp HB E q Iq err.
  assert (D : forall q, In q pts -> is_finite (@dot S n q dir : binary_float p e) = true).
  { intros q' Iq'. apply (dot_err2 f g h pi n q' dir Hn (Fp q' Iq') Fd (HB q' Iq')). }
  pose proof (extent_fold f g h pi n dir pts D) as K.
  destruct (dot_err2 f g h pi n q dir Hn (Fp q Iq) Fd (HB q Iq)) as (_ & Eq).
  assert (Em : (mn, mx) = fold_left (@extreme_step S n dir) pts (@smax S, @slowest S)).
  { unfold extreme_points in E. destruct (geo_assert dbg _) as [[]| | | |]; try discriminate E. cbn [bind] in E.
    destruct (geo_assert dbg _) as [[]| | | |]; try discriminate E. cbn [bind] in E. apply Ok_inj in E. symmetry. exact E. }
  assert (Eq' : Rabs (B2R (@dot S n q dir : binary_float p e) - rdot (vreal q) (vreal dir)) <= err).
  { eapply Rle_trans; [exact Eq|]. unfold err, uflow, eta. lra. }
  exact (proj_covers _ pts (mn, mx) q _ err (eq_ind_r (fun mm => proj_ok (fun q => @dot S n q dir) pts mm) K Em) Iq Eq').
Qed.
Print Assumptions C85_covers.

(** Without a bound on the products it fails: partial sums of a projection may
    overflow although the projection is in range.  For one point and a direction
    with two components of at least 3/5 the limits are the largest number and
    infinity. *)
Definition huge (p e : Z) Hp He : binary_float p e := @Bmax_float p e Hp He.
Theorem C85_overflow_refuted :
  forall (p e : Z) (Hp : Prec_gt_0 p) (He : Prec_lt_emax p e) f g h pi, let S := IEEE p e Hp He f g h pi in
  forall (L : Linal S) (a b c : binary_float p e),
    128 * uround p <= 1 -> is_finite a = true -> is_finite b = true -> is_finite c = true -> Rabs (B2R a) <= 1 -> 3 / 5 <= B2R b <= 1 -> 3 / 5 <= B2R c <= 1 ->
    let q := mk3 (Bopp (huge p e Hp He)) (huge p e Hp He) (huge p e Hp He) in
    @extreme_points S L false 3 (mk3 a b c) [q] = Ok (huge p e Hp He, B754_infinity false) /\
    (b = c -> B2R a = 2 * B2R b - 1 -> rdot (vreal q) (vreal (mk3 a b c)) = B2R (huge p e Hp He)).
Proof.
  intros p e Hp He f g h pi S L a b c U1 Fa Fb Fc Ha Hb Hc q. unfold huge in *. set (M := @Bmax_float p e Hp He) in *.
  destruct (@max_spec p e Hp He) as (FM & EM). fold M in FM, EM. destruct (@emax_pos p e Hp He) as (P0 & Pe).
  split.
  2:{ intros <- Ea. change (B2R (Bopp M) * B2R a + (B2R M * B2R b + (B2R M * B2R b + 0)) = B2R M). rewrite B2R_Bopp, Ea. ring. }
  assert (Bp : bpow radix2 (e - p) = uround p * bpow radix2 e) by (unfold uround; rewrite <- bpow_plus; f_equal; lia).
  pose proof (@u_pos p) as U0.
  pose proof (bpow_gt_0 radix2 e) as Ge.
  assert (M0 : 127 / 128 * bpow radix2 e <= B2R M) by (rewrite EM, Bp; nra).
  assert (FmtM : rndf p e (B2R M) = B2R M) by (apply rnd_id, B2R_fmt).
  (* products do not overflow *)
  assert (Pr : forall x y, is_finite x = true -> is_finite y = true -> Rabs (B2R x) <= B2R M -> Rabs (B2R y) <= 1 ->
    is_finite (@Bmult p e Hp He mode_NE x y) = true /\ B2R (@Bmult p e Hp He mode_NE x y) = rndf p e (B2R x * B2R y)).
  { intros x y Fx Fy Hx Hy. apply mul_ok; try assumption. apply Rle_lt_trans with (B2R M).
    - rewrite <- rnd_abs. rewrite <- FmtM. apply rnd_le. rewrite Rabs_mult. rewrite <- (Rmult_1_r (B2R M)). apply Rmult_le_compat; try apply Rabs_pos; assumption.
    - pose proof (fin_lt M) as L1. rewrite Rabs_pos_eq in L1 by lra. exact L1. }
  assert (MM : Rabs (B2R M) <= B2R M) by (rewrite Rabs_pos_eq; lra).
  destruct (Pr M c FM Fc MM ltac:(apply Rabs_le; lra)) as (Fz & Ez). destruct (Pr M b FM Fb MM ltac:(apply Rabs_le; lra)) as (Fy & Ey).
  destruct (Pr (Bopp M) a ltac:(rewrite is_finite_Bopp; exact FM) Fa ltac:(rewrite B2R_Bopp, Rabs_Ropp; exact MM) Ha) as (Fx & _).
  set (x := @Bmult p e Hp He mode_NE (Bopp M) a) in *. set (y := @Bmult p e Hp He mode_NE M b) in *. set (z := @Bmult p e Hp He mode_NE M c) in *.
  assert (P7 : (7 <= p)%Z).
  { change 128 with (bpow radix2 7) in U1. unfold uround in U1. rewrite <- bpow_plus in U1. change 1 with (bpow radix2 0) in U1. apply le_bpow in U1. lia. }
  assert (B1 : bpow radix2 7 <= bpow radix2 e) by (apply bpow_le; lia). change (bpow radix2 7) with 128 in B1.
  assert (Hh : @eta p e <= 1) by (unfold eta; change 1 with (bpow radix2 0); apply bpow_le; lia).
  assert (Lo : forall w, 3 / 5 <= w <= 1 -> 57 / 100 * bpow radix2 e <= rndf p e (B2R M * w)).
  { intros w Hw. pose proof (@rnd_near p e Hp (B2R M * w)) as N. rewrite (Rabs_pos_eq (B2R M * w)) in N by nra. apply Rabs_le_inv in N.
    assert (uround p * (B2R M * w) <= 1 / 128 * (B2R M * w)) by (apply Rmult_le_compat_r; nra). assert (B2R M * (3 / 5) <= B2R M * w) by (apply Rmult_le_compat_l; lra). lra. }
  pose proof (Lo _ Hb) as Ly. pose proof (Lo _ Hc) as Lz. rewrite <- Ey in Ly. rewrite <- Ez in Lz.
  assert (E0 : @Bplus p e Hp He mode_NE z (B754_zero false) = z).
  { destruct z as [[]|[]| |[] ? ? ?]; try discriminate Fz; try reflexivity. exfalso. cbn [B2R] in Lz. lra. }
  assert (Ov : @Bplus p e Hp He mode_NE y z = B754_infinity false).
  { pose proof (Bplus_correct p e Hp He mode_NE y z Fy Fz) as K. cbn [round_mode] in K. rewrite rnd_change in K.
    assert (Big : bpow radix2 e <= rndf p e (B2R y + B2R z)).
    { rewrite <- (rnd_id (p := p) (e := e) (bpow radix2 e)) by (apply fmt_pow; lia). apply rnd_le. lra. }
    rewrite Rlt_bool_false in K by (rewrite Rabs_pos_eq; lra). destruct K as (K & _). apply inf_B2SF. rewrite K.
    assert (Sy : Bsign y = false).
    { clear - Fy Ly Ge. destruct y as [[]|[]| |[] m x0 Hm]; try discriminate Fy; try reflexivity; exfalso; [cbn [B2R] in Ly; lra|].
      assert (G : B2R (B754_finite true m x0 Hm : binary_float p e) < 0) by exact (F2R_lt_0 radix2 (Float radix2 (Zneg m) x0) eq_refl). lra. }
    rewrite Sy. reflexivity. }
  assert (Ed : (@dot S 3 q (mk3 a b c) : binary_float p e) = B754_infinity false).
  { change (@Bplus p e Hp He mode_NE x (@Bplus p e Hp He mode_NE y (@Bplus p e Hp He mode_NE z (B754_zero false))) = B754_infinity false).
    rewrite E0, Ov. destruct x; try discriminate Fx; reflexivity. }
  unfold extreme_points. cbn [geo_assert bind fold_left]. unfold extreme_step. cbn [fst snd]. rewrite Ed.
  change (@smax S) with M. change (@slowest S) with (Bopp M). reflexivity.
Qed.
Print Assumptions C85_overflow_refuted.

(** non-vacuity: doubles; points (1,2,3), (4,0,0), (-2,5,1) and direction about (1/3, 2/3, 2/3) *)
Example C85_example : forall f g h pi, let S := B64 f g h pi in
  let q1 := b64_quot f g h pi 1 3 in let q2 := b64_quot f g h pi 2 3 in
  let dir := mk3 q1 q2 q2 in
  let pts := [mk3 (b64_ofZ 1) (b64_ofZ 2) (b64_ofZ 3); mk3 (b64_ofZ 4) (b64_ofZ 0) (b64_ofZ 0); mk3 (b64_ofZ (-2)) (b64_ofZ 5) (b64_ofZ 1)] in
  (INR 3 + 1) * uround 53 <= 1 / 32 /\ @isEq S (tol_linal S (b64_pow 1 (-30))) (b64_pow 1 (-30)) (@vlength S 3 dir) s1 = true /\
  finite_pt dir /\ (forall q, In q pts -> finite_pt q /\ rnorm (vreal q) <= 8) /\ 8 * rnorm (vreal dir) <= bpow radix2 (1024 - 2) /\
  is_finite q1 = true /\ is_finite q2 = true /\ Rabs (B2R q1) <= 1 /\ 3 / 5 <= B2R q2 <= 1 /\ 128 * uround 53 <= 1.
Proof.
  intros f g h pi S q1 q2 dir pts.
  assert (U1 : 128 * uround 53 <= 1).
  { unfold uround. change 128 with (bpow radix2 7). rewrite <- bpow_plus. change 1 with (bpow radix2 0). apply bpow_le. lia. }
  destruct (quot_near f g h pi 1 3 ltac:(lia) ltac:(lia) ltac:(lia)) as (F1 & N1). destruct (quot_near f g h pi 2 3 ltac:(lia) ltac:(lia) ltac:(lia)) as (F2 & N2).
  fold q1 in F1, N1. fold q2 in F2, N2.
  assert (s52 : bpow radix2 (-52) <= / 1024) by (change (/ 1024) with (bpow radix2 (-10)); apply bpow_le; lia).
  apply Rabs_le_inv in N1, N2.
  split; [cbn [INR]; lra|]. split; [vm_compute; reflexivity|].
  split; [intros [|[|[|i]]] Hi; [exact F1|exact F2|exact F2|lia]|].
  split.
  - assert (V : forall x y z, (Z.abs x < 2 ^ 53)%Z -> (Z.abs y < 2 ^ 53)%Z -> (Z.abs z < 2 ^ 53)%Z -> (x * x + y * y + z * z <= 64)%Z ->
      finite_pt (mk3 (b64_ofZ x) (b64_ofZ y) (b64_ofZ z)) /\ rnorm (vreal (mk3 (b64_ofZ x) (b64_ofZ y) (b64_ofZ z))) <= 8).
    { intros x y z Hx Hy Hz Hs. destruct (b64_small x Hx) as (Fx & Ex). destruct (b64_small y Hy) as (Fy & Ey). destruct (b64_small z Hz) as (Fz & Ez).
      split; [intros [|[|[|i]]] Hi; [exact Fx|exact Fy|exact Fz|lia]|].
      apply Rsqr_incr_0_var; [|lra]. unfold Rsqr. rewrite rnorm_sq. unfold vreal. cbn [vmap mk3 rdot fst snd]. rewrite Ex, Ey, Ez.
      apply IZR_le in Hs. rewrite !plus_IZR, !mult_IZR in Hs. lra. }
    intros q [<-|[<-|[<-|[]]]]; apply V; lia.
  - split; [|split; [exact F1|split; [exact F2|split; [apply Rabs_le; lra|split; [lra|exact U1]]]]].
    apply Rle_trans with (bpow radix2 4); [|apply bpow_le; lia]. change (bpow radix2 4) with 16. assert (rnorm (vreal dir) <= 2); [|lra].
    apply Rsqr_incr_0_var; [|lra]. unfold Rsqr. rewrite rnorm_sq. unfold vreal, dir. cbn [vmap mk3 rdot fst snd]. nra.
Qed.
