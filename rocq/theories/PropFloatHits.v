(** * Property theorems: entry and exit points of rays and boxes in floating point (C83) *)

From Coq Require Import List Arith Bool Lia ZArith Reals Lra.
From Flocq Require Import Core IEEE754.BinarySingleNaN.
From Verif Require Import Scalar Linal Result ModelShapes ModelBox ModelRayBox SpecIEEE SpecFloatHits ProofRound ProofIEEE ProofBoxIEEE ProofRayBoxIEEE ProofRayBoxPoints PropRayBoxIEEE.
Import ListNotations.
Local Open Scope R_scope.

(** ** C83: intersect(Ray, AABB) in every IEEE-754 binary format with at least seven bits.
    The conditions are those of C57, and the origin of the ray is not extreme.  The call
    never fails.  A reported point is the point of the ray at a parameter [a] (entry) resp.
    [c] (exit), in the box and on the side through which the ray enters (leaves), all up to
    rounding; the ray is in the box at no parameter before [a] or after [c], up to rounding.
    If the ray stays in the box shrunk by the rounding margin for longer than the tolerance,
    the exit point is reported, and the entry point unless the ray starts in or near the box. *)
Theorem C83_points :
  forall (prec emax : Z) (Hp : Prec_gt_0 prec) (He : Prec_lt_emax prec emax) f g h pi, (7 <= prec)%Z ->
    let S := IEEE prec emax Hp He f g h pi in
    forall (L : Linal S) (t : R), LinalF L t ->
    forall (fill dbg : bool) (r : ray S 3) (b : aabb S 3),
      finite_pt (r_origin r) -> finite_pt (r_dir r) -> finite_pt (a_min b) -> finite_pt (a_max b) ->
      let o i := fval i (r_origin r) in let d i := fval i (r_dir r) in
      let mn i := fval i (a_min b) in let mx i := fval i (a_max b) in
      (exists i, (i < 3)%nat /\ d i <> 0) ->
      (forall i, (i < 3)%nat -> d i = 0 \/ (t < Rabs (d i) /\ slab_range emax (o i) (d i) (mn i) /\ slab_range emax (o i) (d i) (mx i))) ->
      (forall i, (i < 3)%nat -> mn i <= mx i) ->
      (forall i, (i < 3)%nat -> Rabs (o i) <= bpow radix2 (emax - 2)) ->
      exists hits a c, ray_box_intersect L fill dbg r b = Ok hits /\
        (h_has_enter hits = true -> - t <= a < c /\ hit_point t o d mn mx entry_side (h_enter hits : vec (binary_float prec emax) 3) a) /\
        (h_has_exit hits = true -> - t <= c /\ a < c /\ hit_point t o d mn mx exit_side (h_exit hits : vec (binary_float prec emax) 3) c) /\
        (forall x s, hits_bool hits = true -> at_box o d mn mx x ->
           (forall i, (i < 3)%nat -> d i <> 0 ->
              slab_margin prec emax (o i) (d i) (mn i) <= s * Rabs (d i) /\ slab_margin prec emax (o i) (d i) (mx i) <= s * Rabs (d i)) ->
           a - s <= x <= c + s) /\
        (forall x1 x2, deep_in_box prec emax o d mn mx x1 -> deep_in_box prec emax o d mn mx x2 -> t < x2 - x1 -> 0 <= x2 ->
           hits_bool hits = true /\ h_has_exit hits = true /\
           ((forall x, x < 0 -> ~ about_box prec emax t o d mn mx x) -> h_has_enter hits = true) /\
           (x1 < - t -> h_has_enter hits = false)) /\
        ((forall x, - t <= x -> ~ about_box prec emax t o d mn mx x) -> hits_bool hits = false).
Proof.
  intros p e Hp He f g h pi H7 S L t HL fill dbg [[o0 [o1 [o2 []]]] [d0 [d1 [d2 []]]]] [[m0 [m1 [m2 []]]] [x0 [x1 [x2 []]]]] Fo Fd Fm Fx o d mn mx Hd Hr Hle Ho.
  change (car S) with (binary_float p e) in *. cbn [r_origin r_dir a_min a_max] in *.
  pose (OO i := vnth (B754_zero false) i ((o0, (o1, (o2, tt))) : vec (binary_float p e) 3)).
  pose (DD i := vnth (B754_zero false) i ((d0, (d1, (d2, tt))) : vec (binary_float p e) 3)).
  pose (NN i := vnth (B754_zero false) i ((m0, (m1, (m2, tt))) : vec (binary_float p e) 3)).
  pose (XX i := vnth (B754_zero false) i ((x0, (x1, (x2, tt))) : vec (binary_float p e) 3)).
  assert (A : forall i, (i < 3)%nat -> axis_ok t (OO i) (DD i) (NN i) (XX i)).
  { intros i Hi. exact (conj (Fo i Hi) (conj (Fd i Hi) (conj (Fm i Hi) (conj (Fx i Hi) (Hr i Hi))))). }
  destruct (interval_facts H7 f g h pi L t HL OO DD NN XX A Hle Hd) as (lo & hi & E & Fl & Fh & Deep & Far).
  change (intervalF _ _ _) with (intervalF (slabF f g h pi L o0 d0 m0 x0) (slabF f g h pi L o1 d1 m1 x1) (slabF f g h pi L o2 d2 m2 x2)) in E.
  rewrite <- intervalF_eq in E.
  change (forall x, deep_in_box p e o d mn mx x -> B2R lo <= x <= B2R hi) in Deep.
  assert (Hit : forall w : binary_float p e, is_finite w = true -> B2R lo < B2R hi -> B2R lo <= B2R w <= B2R hi ->
    about_box p e t o d mn mx (B2R w) /\
    hit_at OO DD NN XX (fun i => Bplus mode_NE (OO i) (Bmult mode_NE w (DD i))) (B2R w)).
  { intros w Fw Hlt Hw. destruct (Far Hlt) as (K & _). specialize (K _ Hw). split; [exact K|]. exact (hit_ok H7 t OO DD NN XX A w Fw Ho K). }
  assert (Pt : forall (w : binary_float p e) side, is_finite w = true -> B2R lo < B2R hi -> B2R lo <= B2R w <= B2R hi ->
    (exists k, (k < 3)%nat /\ d k <> 0 /\ Rabs (o k + B2R w * d k - side (d k) (mn k) (mx k)) <= Rmax (mg (OO k) (DD k) (NN k)) (mg (OO k) (DD k) (XX k))) ->
    hit_point t o d mn mx side (@vadd S 3 (o0, (o1, (o2, tt))) (@vscale S 3 w (d0, (d1, (d2, tt)))) : vec (binary_float p e) 3) (B2R w)).
  { intros w side Fw Hlt Hw (k & Hk & Nk & Sk). destruct (Hit w Fw Hlt Hw) as (K & Q).
    assert (V : forall i, (i < 3)%nat -> vnth (B754_zero false) i (@vadd S 3 (o0, (o1, (o2, tt))) (@vscale S 3 w (d0, (d1, (d2, tt)))) : vec (binary_float p e) 3) =
      Bplus mode_NE (OO i) (Bmult mode_NE w (DD i))) by (intros [|[|[|i]]] Hi; [reflexivity|reflexivity|reflexivity|lia]).
    unfold hit_point, finite_pt, fval. set (q := @vadd S 3 _ _ : vec (binary_float p e) 3) in *. split; [|split].
    - intros i Hi. rewrite V by exact Hi. apply (Q i Hi).
    - intros i Hi. rewrite V by exact Hi. destruct (Q i Hi) as (_ & Q1 & Q2). destruct (K i Hi) as (K1 & K2). cbv beta in *.
      change (B2R (OO i)) with (o i) in *. change (B2R (DD i)) with (d i) in *. change (B2R (NN i)) with (mn i) in *. change (B2R (XX i)) with (mx i) in *.
      split; [intros Z; specialize (Q1 Z); specialize (K1 Z); rewrite Q1; split; [reflexivity|exact K1]|].
      intros N. specialize (K2 N). change (slab_margin p e (o i) (d i) (mn i)) with (mg (OO i) (DD i) (NN i)) in K2. change (slab_margin p e (o i) (d i) (mx i)) with (mg (OO i) (DD i) (XX i)) in K2.
      pose proof (Rmax_l (mg (OO i) (DD i) (NN i)) (mg (OO i) (DD i) (XX i))). pose proof (Rmax_r (mg (OO i) (DD i) (NN i)) (mg (OO i) (DD i) (XX i))).
      pose proof (mg_pos H7 (OO i) (DD i) (NN i)). set (qq := B2R (Bplus _ _ _)) in *.
      pose proof (Rle_abs (qq - (o i + B2R w * d i))). pose proof (Rle_abs (- (qq - (o i + B2R w * d i)))) as J. rewrite Rabs_Ropp in J. lra.
    - exists k. split; [exact Hk|]. split; [exact Nk|]. rewrite V by exact Hk. destruct (Q k Hk) as (_ & _ & Q2). cbv beta in Q2.
      change (B2R (OO k)) with (o k) in *. change (B2R (DD k)) with (d k) in *. change (B2R (NN k)) with (mn k) in *. change (B2R (XX k)) with (mx k) in *.
      set (qq := B2R (Bplus _ _ _)) in *.
      replace (qq - side (d k) (mn k) (mx k)) with (qq - (o k + B2R w * d k) + (o k + B2R w * d k - side (d k) (mn k) (mx k))) by ring.
      eapply Rle_trans; [apply Rabs_triang|]. lra. }
  pose proof (lf_slack L t HL) as T0.
  unfold ray_box_intersect.
  match goal with |- context [ray_interval L ?r ?b] => assert (E' : ray_interval L r b = (lo, hi)) by exact E; rewrite E' end.
  destruct (isGreaterEq L (leps L) lo hi) eqn:E1.
  { exists (hits_default fill), 0, 0. split; [reflexivity|]. cbn. split; [discriminate|]. split; [discriminate|]. split; [discriminate|].
    apply (lf_greatereq_1 L t HL lo hi Fl Fh) in E1. split; [|reflexivity].
    intros y1 y2 I1 I2 Hlt _. pose proof (Deep _ I1). pose proof (Deep _ I2). lra. }
  assert (Hab : B2R lo < B2R hi).
  { apply Rnot_le_lt. intros K. exact (Bool.eq_true_false_abs _ (lf_greatereq_0 L t HL lo hi Fl Fh K) E1). }
  destruct (Far Hab) as (Near & En & Exi & In').
  assert (Z1 : is_finite (@B754_zero p e false) = true) by reflexivity.
  assert (P1 := Pt lo entry_side Fl Hab ltac:(lra) En). assert (P2 := Pt hi exit_side Fh Hab ltac:(lra) Exi).
  assert (G1 : forall w : binary_float p e, is_finite w = true -> isGreaterEq L (leps L) w (@s0 S) = true -> - t <= B2R w).
  { intros w Fw K. apply (lf_greatereq_1 L t HL w (B754_zero false) Fw Z1) in K. cbn in K. lra. }
  assert (G0 : forall w : binary_float p e, is_finite w = true -> isGreaterEq L (leps L) w (@s0 S) = false -> B2R w < 0).
  { intros w Fw K. apply Rnot_le_lt. intros W. exact (Bool.eq_true_false_abs _ (lf_greatereq_0 L t HL w (B754_zero false) Fw Z1 W) K). }
  specialize (G1 lo Fl) as G1l. specialize (G1 hi Fh) as G1h. specialize (G0 lo Fl) as G0l. specialize (G0 hi Fh) as G0h.
  assert (InB : forall x s, at_box o d mn mx x -> (forall i, (i < 3)%nat -> d i <> 0 ->
              slab_margin p e (o i) (d i) (mn i) <= s * Rabs (d i) /\ slab_margin p e (o i) (d i) (mx i) <= s * Rabs (d i)) -> B2R lo - s <= x <= B2R hi + s).
  { intros x s K1 K2. destruct (In' x s K1 K2). lra. }
  unfold ordinate_to_point. cbn [r_origin r_dir].
  destruct (isGreaterEq L (leps L) lo (@s0 S)) eqn:E2; destruct (isGreaterEq L (leps L) hi (@s0 S)) eqn:E3;
    rewrite ?geo_assert_true by exact eq_refl; cbn [bind]; eexists; exists (B2R lo), (B2R hi); (split; [reflexivity|]);
    cbn [set_enter set_exit hits_default h_has_enter h_has_exit h_enter h_exit hits_bool orb];
    try specialize (G1l eq_refl); try specialize (G1h eq_refl); try specialize (G0l eq_refl); try specialize (G0h eq_refl); try lra.
  - split; [intros _; split; [lra|exact P1]|]. split; [intros _; split; [lra|]; split; [lra|exact P2]|]. split; [intros x s _; apply InB|]. split.
    + intros y1 y2 I1 I2 Hlt H0. pose proof (Deep _ I1). pose proof (Deep _ I2). split; [reflexivity|]. split; [reflexivity|]. split; [reflexivity|]. intros K. lra.
    + intros K. exfalso. apply (K (B2R hi)); [lra|]. apply Near. lra.
  - split; [intros _; split; [lra|exact P1]|]. split; [discriminate|]. split; [intros x s _; apply InB|]. split.
    + intros y1 y2 I1 I2 Hlt H0. pose proof (Deep _ I2). lra.
    + intros K. exfalso. apply (K (B2R lo)); [lra|]. apply Near. lra.
  - split; [discriminate|]. split; [intros _; split; [lra|]; split; [lra|exact P2]|]. split; [intros x s _; apply InB|]. split.
    + intros y1 y2 I1 I2 Hlt H0. split; [reflexivity|]. split; [reflexivity|]. split; [|reflexivity].
      intros K. exfalso. apply (K (B2R lo)); [lra|]. apply Near. lra.
    + intros K. exfalso. apply (K (B2R hi)); [lra|]. apply Near. lra.
  - split; [discriminate|]. split; [discriminate|]. split; [discriminate|]. split; [|reflexivity].
    intros y1 y2 I1 I2 Hlt H0. pose proof (Deep _ I2). lra.
Qed.
Print Assumptions C83_points.

(** ** Without an allowance for rounding the claim is false: the ray of doubles from the
    origin in the direction of (5,12,0) enters the box [1,2] x [0,20] x [-1,1] at a reported
    point that is not in the box. *)
Theorem C83_inside_refuted :
  forall f g h pi, let S := B64 f g h pi in
  let L := raw_linal S (B754_zero false) in let z := b64_ofZ 0 in
  let b := @mkAABB S 3 (mk3 (b64_ofZ 1) z (b64_ofZ (-1))) (mk3 (b64_ofZ 2) (b64_ofZ 20) (b64_ofZ 1)) in
  forall fill dbg, exists r hits,
    ray_make L dbg (mk3 z z z : vec S 3) (mk3 (b64_ofZ 5) (b64_ofZ 12) z : vec S 3) = Ok r /\
    ray_box_intersect L fill dbg r b = Ok hits /\ h_has_enter hits = true /\
    finite_pt (h_enter hits : vec b64 3) /\ fval 0 (h_enter hits : vec b64 3) < fval 0 (a_min b : vec b64 3).
Proof.
  intros f g h pi S L z b fill dbg.
  pose (r := @mkRay S 3 (mk3 z z z) (@normalize S 3 (mk3 (b64_ofZ 5) (b64_ofZ 12) z))). exists r.
  assert (Er : forall dbg, ray_make L dbg (mk3 z z z : vec S 3) (mk3 (b64_ofZ 5) (b64_ofZ 12) z : vec S 3) = Ok r).
  { intros [|]; [|reflexivity]. unfold ray_make. rewrite geo_assert_true; [reflexivity|]. vm_compute. reflexivity. }
  pose (ck := match ray_box_intersect L fill dbg r b with
    | Ok hh => h_has_enter hh && forallb (fun i => is_finite (vnth (B754_zero false) i (h_enter hh : vec b64 3))) [0%nat; 1%nat; 2%nat] &&
        Bltb (vnth (B754_zero false) 0 (h_enter hh : vec b64 3)) (vnth (B754_zero false) 0 (a_min b : vec b64 3))
    | _ => false end).
  assert (K : ck = true) by (destruct fill, dbg; vm_compute; reflexivity). unfold ck in K.
  destruct (ray_box_intersect L fill dbg r b) as [hh| | | |] eqn:E; [|discriminate K..].
  apply andb_prop in K as [K K3]. apply andb_prop in K as [K1 K2]. cbn [forallb] in K2.
  apply andb_prop in K2 as [F0 K2]. apply andb_prop in K2 as [F1 K2]. apply andb_prop in K2 as [F2 _].
  exists hh. split; [apply Er|]. split; [reflexivity|]. split; [exact K1|].
  split; [intros [|[|[|i]]] Hi; [exact F0|exact F1|exact F2|lia]|].
  rewrite Bltb_correct in K3; [|exact F0|reflexivity]. unfold fval. destruct (Rlt_bool_spec (B2R (vnth (B754_zero false) 0 (h_enter hh : vec b64 3))) (B2R (vnth (B754_zero false) 0 (a_min b : vec b64 3)))) as [Q|Q]; [exact Q|discriminate].
Qed.
Print Assumptions C83_inside_refuted.

(** the ray of C57_example: both points are reported, on the sides x = 1 and x = 2 *)
Example C83_example : forall f g h pi,
  let S := B64 f g h pi in
  let z := B754_zero false : b64 in let one := b64_pow 1 0 in let two := b64_pow 1 1 in
  let r := @mkRay S 3 (mk3 z one one) (mk3 one z z) in
  let b := @mkAABB S 3 (mk3 one z z) (mk3 two two two) in
  forall fill dbg, exists hits, ray_box_intersect (raw_linal S z) fill dbg r b = Ok hits /\
    h_has_enter hits = true /\ h_has_exit hits = true /\
    Rabs (fval 0 (h_enter hits : vec b64 3) - 1) <= bpow radix2 (-48) /\ Rabs (fval 0 (h_exit hits : vec b64 3) - 2) <= bpow radix2 (-48).
Proof.
  intros f g h pi S z one two r b fill dbg.
  destruct (C57_example f g h pi) as (HL & Fo & Fd & Fm & Fx & Hd & Hr & _).
  destruct (@pow_spec 53 1024 prec53 prec_emax64 1 0) as (F1 & V1); [lia|lia|lia|].
  destruct (@pow_spec 53 1024 prec53 prec_emax64 1 1) as (F2 & V2); [lia|lia|lia|].
  assert (V1' : B2R one = 1) by (unfold one, b64_pow; rewrite V1; cbn; ring). assert (V2' : B2R two = 2) by (unfold two, b64_pow; rewrite V2; cbn; ring).
  pose (o i := fval i (r_origin r : vec b64 3)). pose (d i := fval i (r_dir r : vec b64 3)). pose (mn i := fval i (a_min b : vec b64 3)). pose (mx i := fval i (a_max b : vec b64 3)).
  assert (O0 : o 0%nat = 0) by reflexivity. assert (O1 : o 1%nat = 1) by exact V1'. assert (O2 : o 2%nat = 1) by exact V1'.
  assert (D0 : d 0%nat = 1) by exact V1'. assert (D1 : d 1%nat = 0) by reflexivity. assert (D2 : d 2%nat = 0) by reflexivity.
  assert (N0 : mn 0%nat = 1) by exact V1'. assert (N1 : mn 1%nat = 0) by reflexivity. assert (N2 : mn 2%nat = 0) by reflexivity.
  assert (X0 : mx 0%nat = 2) by exact V2'. assert (X1 : mx 1%nat = 2) by exact V2'. assert (X2 : mx 2%nat = 2) by exact V2'.
  assert (U : 0 < bpow radix2 (-53) <= / 1024) by (split; [apply bpow_gt_0|change (/ 1024) with (bpow radix2 (-10)); apply bpow_le; lia]).
  assert (T : 0 < tiny 53 1024 <= bpow radix2 (-53)) by (unfold tiny; split; [apply bpow_gt_0|apply bpow_le; lia]).
  assert (T' : bpow radix2 (-48) = 32 * bpow radix2 (-53)) by (change 32 with (bpow radix2 5); rewrite <- bpow_plus; reflexivity).
  assert (G : 0 <= gamma3 53 <= / 10).
  { unfold gamma3. change (-(53))%Z with (-53)%Z. set (v := bpow radix2 (-53)) in *. clearbody v. split; nra. }
  destruct (C83_points 53 1024 prec53 prec_emax64 f g h pi ltac:(lia) (raw_linal S z) 0 HL fill dbg r b Fo Fd Fm Fx Hd Hr) as (hits & a & c & E & Pe & Px & _ & Deep & _).
  - apply lt3. change (mn 0%nat <= mx 0%nat /\ mn 1%nat <= mx 1%nat /\ mn 2%nat <= mx 2%nat). lra.
  - apply lt3. change (Rabs (o 0%nat) <= bpow radix2 1022 /\ Rabs (o 1%nat) <= bpow radix2 1022 /\ Rabs (o 2%nat) <= bpow radix2 1022).
    rewrite O0, O1, O2, Rabs_R0, Rabs_R1. assert (1 <= bpow radix2 1022) by (change 1 with (bpow radix2 0); apply bpow_le; lia). lra.
  - change (h_has_enter hits = true -> - 0 <= a < c /\ hit_point 0 o d mn mx entry_side (h_enter hits : vec b64 3) a) in Pe.
    change (h_has_exit hits = true -> - 0 <= c /\ a < c /\ hit_point 0 o d mn mx exit_side (h_exit hits : vec b64 3) c) in Px.
    assert (MG : forall y, 0 <= y <= 2 -> 0 <= slab_margin 53 1024 0 1 y <= / 4).
    { intros y Hy. unfold slab_margin. rewrite Rminus_0_r, Rabs_R1, Rabs_pos_eq by lra. assert (0 <= gamma3 53 * y <= / 10 * 2) by (split; [apply Rmult_le_pos; lra|apply Rmult_le_compat; lra]). lra. }
    pose proof (MG 1 ltac:(lra)) as MG1. pose proof (MG 2 ltac:(lra)) as MG2.
    assert (DI : forall x, 5 / 4 <= x <= 7 / 4 -> deep_in_box 53 1024 o d mn mx x).
    { intros x Hx. unfold deep_in_box. apply lt3. rewrite O0, O1, O2, D0, D1, D2, N0, N1, N2, X0, X1, X2. (split; [|split]); (split; intros N; [lra|]); try (exfalso; apply N; reflexivity); lra. }
    destruct (Deep (5 / 4) (7 / 4) (DI (5 / 4) ltac:(lra)) (DI (7 / 4) ltac:(lra)) ltac:(lra) ltac:(lra)) as (_ & Hx & He & _).
    assert (He' : h_has_enter hits = true).
    { apply He. intros x Hx0 K. destruct (K 0%nat ltac:(lia)) as (_ & K0).
      change (d 0%nat <> 0 -> mn 0%nat - slab_margin 53 1024 (o 0%nat) (d 0%nat) (mn 0%nat) <= o 0%nat + x * d 0%nat <= mx 0%nat + slab_margin 53 1024 (o 0%nat) (d 0%nat) (mx 0%nat)) in K0.
      rewrite O0, D0, N0, X0 in K0. specialize (K0 ltac:(lra)). lra. }
    exists hits. split; [exact E|]. split; [exact He'|]. split; [exact Hx|].
    destruct (Pe He') as (_ & _ & _ & k & Hk & Nk & Pk). destruct (Px Hx) as (_ & _ & _ & _ & k' & Hk' & Nk' & Pk').
    assert (Ek : k = 0%nat) by (destruct k as [|[|[|k]]]; [reflexivity|rewrite D1 in Nk; lra|rewrite D2 in Nk; lra|lia]).
    assert (Ek' : k' = 0%nat) by (destruct k' as [|[|[|k']]]; [reflexivity|rewrite D1 in Nk'; lra|rewrite D2 in Nk'; lra|lia]).
    subst k k'. rewrite O0, D0, N0, X0 in Pk, Pk'. unfold entry_side, exit_side in Pk, Pk'. destruct (Rlt_dec 0 1) as [_|C]; [|lra].
    assert (HE : hit_err 53 1024 0 1 1 2 <= bpow radix2 (-48)).
    { unfold hit_err. rewrite !Rminus_0_r, Rabs_R0, Rabs_R1, (Rabs_pos_eq 2), Rmax_right by lra. rewrite T'. change (- (53))%Z with (-53)%Z. lra. }
    split; eapply Rle_trans; try exact HE; assumption.
Qed.
