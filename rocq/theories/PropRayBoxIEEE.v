(** * Property theorems: ray / box intersection in floating point (C57) *)

From Coq Require Import List Arith Bool Lia ZArith Reals Lra.
From Flocq Require Import Core IEEE754.BinarySingleNaN.
From Verif Require Import Scalar Linal Result ModelShapes ModelBox ModelRayBox SpecIEEE ProofRound ProofIEEE ProofBoxIEEE ProofRayBoxIEEE.
Import ListNotations.
Local Open Scope R_scope.

Lemma lt3 (P : nat -> Prop) : (forall i, (i < 3)%nat -> P i) <-> P 0%nat /\ P 1%nat /\ P 2%nat.
Proof. split; [intros H; repeat split; apply H; lia|]. intros (A & B & C) [|[|[|i]]] Hi; try assumption. lia. Qed.

(** ** C57: the ray / box test in every IEEE-754 binary format.  Each direction
    component is 0 or beyond the tolerance, and nothing overflows.

    A ray is reported if it passes through the box shrunk by the rounding
    margin [slab_margin], that is three relative rounding errors of the distance
    between the origin and the face plus a term below the smallest positive
    number.  What is missing: rays that meet only the rim of the box (see the
    refutation). *)
Theorem C57_ray_box_ieee_complete_partial :
  forall (prec emax : Z) (Hp : Prec_gt_0 prec) (He : Prec_lt_emax prec emax) f g h pi,
    let S := IEEE prec emax Hp He f g h pi in
    forall (L : Linal S) (t : R), LinalF L t ->
    forall (r : ray S 3) (b : aabb S 3),
      finite_pt (r_origin r) -> finite_pt (r_dir r) -> finite_pt (a_min b) -> finite_pt (a_max b) ->
      let o i := fval i (r_origin r) in let d i := fval i (r_dir r) in
      let mn i := fval i (a_min b) in let mx i := fval i (a_max b) in
      (exists i, (i < 3)%nat /\ d i <> 0) ->
      (forall i, (i < 3)%nat -> d i = 0 \/ (t < Rabs (d i) /\ slab_range emax (o i) (d i) (mn i) /\ slab_range emax (o i) (d i) (mx i))) ->
      forall x, 0 <= x ->
      (forall i, (i < 3)%nat ->
         (d i = 0 -> mn i <= o i <= mx i) /\
         (d i <> 0 -> mn i + slab_margin prec emax (o i) (d i) (mn i) <= o i + x * d i <= mx i - slab_margin prec emax (o i) (d i) (mx i))) ->
      ray_box_is_intersecting L r b = true.
Proof.
  intros prec emax Hp He f g h pi S L t HL [[o0 [o1 [o2 []]]] [d0 [d1 [d2 []]]]] [[m0 [m1 [m2 []]]] [x0 [x1 [x2 []]]]] Fo Fd Fm Fx o d mn mx Hd Hr x Hx H.
  apply lt3 in Fo, Fd, Fm, Fx, Hr, H. destruct Fo as (Fo0 & Fo1 & Fo2), Fd as (Fd0 & Fd1 & Fd2), Fm as (Fm0 & Fm1 & Fm2), Fx as (Fx0 & Fx1 & Fx2), Hr as (R0 & R1 & R2), H as (H0 & H1 & H2).
  apply (test_complete f g h pi L t HL o0 o1 o2 d0 d1 d2 m0 m1 m2 x0 x1 x2 x Hx).
  - exact (conj Fo0 (conj Fd0 (conj Fm0 (conj Fx0 R0)))).
  - exact (conj Fo1 (conj Fd1 (conj Fm1 (conj Fx1 R1)))).
  - exact (conj Fo2 (conj Fd2 (conj Fm2 (conj Fx2 R2)))).
  - destruct Hd as (i & Hi & N). destruct i as [|[|[|i]]]; [left; exact N|right; left; exact N|right; right; exact N|lia].
  - intros o' d' mn' mx' Hin. cbn in Hin. destruct Hin as [[= <- <- <- <-]|[[= <- <- <- <-]|[[= <- <- <- <-]|[]]]]; assumption.
Qed.
Print Assumptions C57_ray_box_ieee_complete_partial.

(** A reported ray passes through the box enlarged by the same margin and the
    slack of the comparisons. *)
Theorem C57_ray_box_ieee_sound :
  forall (prec emax : Z) (Hp : Prec_gt_0 prec) (He : Prec_lt_emax prec emax) f g h pi,
    let S := IEEE prec emax Hp He f g h pi in
    forall (L : Linal S) (t : R), LinalF L t -> t < bpow radix2 emax ->
    forall (r : ray S 3) (b : aabb S 3),
      finite_pt (r_origin r) -> finite_pt (r_dir r) -> finite_pt (a_min b) -> finite_pt (a_max b) ->
      let o i := fval i (r_origin r) in let d i := fval i (r_dir r) in
      let mn i := fval i (a_min b) in let mx i := fval i (a_max b) in
      (exists i, (i < 3)%nat /\ d i <> 0) ->
      (forall i, (i < 3)%nat -> d i = 0 \/ (t < Rabs (d i) /\ slab_range emax (o i) (d i) (mn i) /\ slab_range emax (o i) (d i) (mx i))) ->
      (forall i, (i < 3)%nat -> mn i <= mx i) ->
      ray_box_is_intersecting L r b = true ->
      exists x, 0 <= x /\ forall i, (i < 3)%nat ->
         (d i = 0 -> mn i - t <= o i <= mx i + t) /\
         (d i <> 0 ->
          mn i - (slab_margin prec emax (o i) (d i) (mn i) + t * Rabs (d i)) <= o i + x * d i <=
          mx i + (slab_margin prec emax (o i) (d i) (mx i) + t * Rabs (d i))).
Proof.
  intros prec emax Hp He f g h pi S L t HL Ht [[o0 [o1 [o2 []]]] [d0 [d1 [d2 []]]]] [[m0 [m1 [m2 []]]] [x0 [x1 [x2 []]]]] Fo Fd Fm Fx o d mn mx Hd Hr Hle H.
  apply lt3 in Fo, Fd, Fm, Fx, Hr, Hle. destruct Fo as (Fo0 & Fo1 & Fo2), Fd as (Fd0 & Fd1 & Fd2), Fm as (Fm0 & Fm1 & Fm2), Fx as (Fx0 & Fx1 & Fx2), Hr as (R0 & R1 & R2), Hle as (H0 & H1 & H2).
  destruct (test_sound f g h pi L t HL o0 o1 o2 d0 d1 d2 m0 m1 m2 x0 x1 x2 Ht) as (x & Hx & K); try assumption.
  - exact (conj Fo0 (conj Fd0 (conj Fm0 (conj Fx0 R0)))).
  - exact (conj Fo1 (conj Fd1 (conj Fm1 (conj Fx1 R1)))).
  - exact (conj Fo2 (conj Fd2 (conj Fm2 (conj Fx2 R2)))).
  - destruct Hd as (i & Hi & N). destruct i as [|[|[|i]]]; [left; exact N|right; left; exact N|right; right; exact N|lia].
  - exists x. split; [exact Hx|]. apply lt3. split; [|split]; apply K; cbn; auto.
Qed.
Print Assumptions C57_ray_box_ieee_sound.

(** Without the margin the test misses rays: this ray of doubles has direction
    (5, 12, 0) / 13 as normalised by the constructor, comes from 2^40 away and
    passes exactly through the centre of the box; neither exact comparisons nor a
    tolerance of 2^-14 report it. *)
Definition miss_ray f g h pi : ray (B64 f g h pi) 3 :=
  let S := B64 f g h pi in
  @mkRay S 3 (mk3 (b64_pow (-0x189d89d89d89d9) (-14)) (b64_pow (-0x1d89d89d89d89e) (-13)) (B754_zero false))
        (@normalize S 3 (mk3 (b64_ofZ 5) (b64_ofZ 12) (b64_ofZ 0))).
Definition miss_box f g h pi : aabb (B64 f g h pi) 3 :=
  let S := B64 f g h pi in
  let a := b64_pow (-1) (-20) in let c := b64_pow 1 (-20) in @mkAABB S 3 (mk3 a a a) (mk3 c c c).

Lemma meets (x y : b64) a b : B2R x = a -> B2R y = b -> a + bpow radix2 40 * b = 0 -> B2R x + bpow radix2 40 * B2R y = 0.
Proof. intros -> ->. auto. Qed.

Theorem C57_missed_refuted :
  forall f g h pi,
    let S := B64 f g h pi in
    let r := miss_ray f g h pi in let b := miss_box f g h pi in
    (exists o, ray_make (raw_linal S (B754_zero false)) true o (mk3 (b64_ofZ 5) (b64_ofZ 12) (b64_ofZ 0) : vec S 3) = Ok r) /\
    finite_pt (r_origin r) /\ finite_pt (r_dir r) /\
    (forall i, (i < 3)%nat ->
       fval i (a_min b) < 0 < fval i (a_max b) /\ fval i (r_origin r) + bpow radix2 40 * fval i (r_dir r) = 0) /\
    ray_box_is_intersecting (raw_linal S (B754_zero false)) r b = false /\
    ray_box_is_intersecting (tol_linal S (b64_pow 1 (-14))) r b = false.
Proof.
  intros f g h pi S r b.
  assert (P : forall m k, (Z.abs m < 2 ^ 53)%Z -> (-1074 <= k <= 971)%Z -> is_finite (b64_pow m k) = true /\ B2R (b64_pow m k) = IZR m * bpow radix2 k).
  { intros m k H1 H2. apply (@pow_spec 53 1024 prec53 prec_emax64 m k); lia. }
  pose (d0 := b64_pow 0x189d89d89d89d9 (-54)). pose (d1 := b64_pow 0x1d89d89d89d89e (-53)).
  destruct (P 0x189d89d89d89d9 (-54))%Z as (Fd0 & Vd0); [lia|lia|]. destruct (P 0x1d89d89d89d89e (-53))%Z as (Fd1 & Vd1); [lia|lia|].
  destruct (P (-0x189d89d89d89d9) (-14))%Z as (Fo0 & Vo0); [lia|lia|]. destruct (P (-0x1d89d89d89d89e) (-13))%Z as (Fo1 & Vo1); [lia|lia|].
  destruct (P (-1) (-20))%Z as (Fa & Va); [lia|lia|]. destruct (P 1 (-20))%Z as (Fc & Vc); [lia|lia|].
  assert (E0 : Beqb (vnth (B754_zero false) 0 (r_dir r)) d0 = true) by (vm_compute; reflexivity).
  assert (E1 : Beqb (vnth (B754_zero false) 1 (r_dir r)) d1 = true) by (vm_compute; reflexivity).
  assert (E2 : Beqb (vnth (B754_zero false) 2 (r_dir r)) (B754_zero false : b64) = true) by (vm_compute; reflexivity).
  apply eqb_B2R in E0; [|exact Fd0]. apply eqb_B2R in E1; [|exact Fd1]. apply eqb_B2R in E2; [|reflexivity].
  destruct E0 as (F0 & V0), E1 as (F1 & V1), E2 as (F2 & V2).
  split.
  { exists (r_origin r). unfold ray_make. replace (_ <? _)%S with true by (vm_compute; reflexivity). reflexivity. }
  split; [intros [|[|[|i]]] Hi; [exact Fo0|exact Fo1|reflexivity|lia]|]. split; [intros [|[|[|i]]] Hi; [exact F0|exact F1|exact F2|lia]|].
  split; [|split; vm_compute; reflexivity].
  assert (Hb : forall i, (i < 3)%nat -> fval i (a_min b) < 0 < fval i (a_max b)).
  { assert (B2R (b64_pow (-1) (-20)) < 0 < B2R (b64_pow 1 (-20))) by (rewrite Va, Vc; pose proof (bpow_gt_0 radix2 (-20)); lra).
    apply lt3. repeat split; apply H. }
  intros i Hi. split; [apply Hb, Hi|]. revert i Hi. clear Hb. apply lt3. split; [|split].
  - refine (meets (b64_pow (-0x189d89d89d89d9) (-14)) _ _ _ Vo0 (eq_trans V0 Vd0) _).
    replace (bpow radix2 (-14)) with (bpow radix2 40 * bpow radix2 (-54)) by (rewrite <- bpow_plus; reflexivity). ring.
  - refine (meets (b64_pow (-0x1d89d89d89d89e) (-13)) _ _ _ Vo1 (eq_trans V1 Vd1) _).
    replace (bpow radix2 (-13)) with (bpow radix2 40 * bpow radix2 (-53)) by (rewrite <- bpow_plus; reflexivity). ring.
  - refine (meets (B754_zero false : b64) _ _ _ eq_refl V2 _). cbn [B2R]. ring.
Qed.
Print Assumptions C57_missed_refuted.

(** an axis-parallel ray of doubles along x from (0, 1, 1) and the box [1, 2] x [0, 2] x [0, 2] *)
Example C57_example : forall f g h pi,
  let S := B64 f g h pi in
  let z := B754_zero false : b64 in let one := b64_pow 1 0 in let two := b64_pow 1 1 in
  let r := @mkRay S 3 (mk3 z one one) (mk3 one z z) in
  let b := @mkAABB S 3 (mk3 one z z) (mk3 two two two) in
  let o i := fval i (r_origin r) in let d i := fval i (r_dir r) in
  let mn i := fval i (a_min b) in let mx i := fval i (a_max b) in
  LinalF (raw_linal S z) 0 /\
  finite_pt (r_origin r) /\ finite_pt (r_dir r) /\ finite_pt (a_min b) /\ finite_pt (a_max b) /\
  (exists i, (i < 3)%nat /\ d i <> 0) /\
  (forall i, (i < 3)%nat -> d i = 0 \/ (0 < Rabs (d i) /\ slab_range 1024 (o i) (d i) (mn i) /\ slab_range 1024 (o i) (d i) (mx i))) /\
  (forall i, (i < 3)%nat ->
     (d i = 0 -> mn i <= o i <= mx i) /\
     (d i <> 0 -> mn i + slab_margin 53 1024 (o i) (d i) (mn i) <= o i + 3 / 2 * d i <= mx i - slab_margin 53 1024 (o i) (d i) (mx i))).
Proof.
  intros f g h pi S z one two r b o d mn mx.
  destruct (@pow_spec 53 1024 prec53 prec_emax64 1 0) as (F1 & V1); [lia|lia|lia|].
  destruct (@pow_spec 53 1024 prec53 prec_emax64 1 1) as (F2 & V2); [lia|lia|lia|].
  assert (V1' : B2R one = 1) by (unfold one, b64_pow; rewrite V1; cbn; ring). assert (V2' : B2R two = 2) by (unfold two, b64_pow; rewrite V2; cbn; ring).
  split; [exact (raw_linal_F f g h pi z)|].
  split; [intros [|[|[|i]]] Hi; [reflexivity|exact F1|exact F1|lia]|]. split; [intros [|[|[|i]]] Hi; [exact F1|reflexivity|reflexivity|lia]|].
  split; [intros [|[|[|i]]] Hi; [exact F1|reflexivity|reflexivity|lia]|]. split; [intros [|[|[|i]]] Hi; [exact F2|exact F2|exact F2|lia]|].
  assert (O0 : o 0%nat = 0) by reflexivity. assert (O1 : o 1%nat = 1) by exact V1'. assert (O2 : o 2%nat = 1) by exact V1'.
  assert (D0 : d 0%nat = 1) by exact V1'. assert (D1 : d 1%nat = 0) by reflexivity. assert (D2 : d 2%nat = 0) by reflexivity.
  assert (N0 : mn 0%nat = 1) by exact V1'. assert (N1 : mn 1%nat = 0) by reflexivity. assert (N2 : mn 2%nat = 0) by reflexivity.
  assert (X0 : mx 0%nat = 2) by exact V2'. assert (X1 : mx 1%nat = 2) by exact V2'. assert (X2 : mx 2%nat = 2) by exact V2'.
  assert (Big : 8 <= bpow radix2 1020) by (change 8 with (bpow radix2 3); apply bpow_le; lia).
  assert (Big' : 8 <= bpow radix2 1021) by (change 8 with (bpow radix2 3); apply bpow_le; lia).
  assert (Small : bpow radix2 (-1021) <= 1) by (change 1 with (bpow radix2 0); apply bpow_le; lia).
  assert (U : 0 < bpow radix2 (-53) <= / 16) by (split; [apply bpow_gt_0|change (/ 16) with (bpow radix2 (-4)); apply bpow_le; lia]).
  assert (T : 0 < tiny 53 1024 <= / 16) by (unfold tiny; split; [apply bpow_gt_0|change (/ 16) with (bpow radix2 (-4)); apply bpow_le; lia]).
  split; [exists 0%nat; split; [lia|rewrite D0; lra]|].
  split; apply lt3; rewrite ?O0, ?O1, ?O2, ?D0, ?D1, ?D2, ?N0, ?N1, ?N2, ?X0, ?X1, ?X2.
  - split; [right|split; left; reflexivity]. unfold slab_range. change (3 - 1024)%Z with (-1021)%Z. change (1024 - 3)%Z with 1021%Z. change (1024 - 4)%Z with 1020%Z.
    rewrite Rabs_R1. rewrite !Rminus_0_r, Rabs_R1, (Rabs_pos_eq 2) by lra. repeat split; lra.
  - split; [|split]; (split; [intros; lra|intros N; try (exfalso; apply N; reflexivity)]).
    unfold slab_margin. rewrite !Rminus_0_r, Rabs_R1, (Rabs_pos_eq 2) by lra.
    assert (G : 0 <= gamma3 53 <= / 5).
    { unfold gamma3. change (-(53))%Z with (-53)%Z. set (v := bpow radix2 (-53)) in *. clearbody v. split; nra. }
    lra.
Qed.
