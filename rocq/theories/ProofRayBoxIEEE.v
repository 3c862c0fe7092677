(** * Ray / box intersection in floating point *)

From Coq Require Import List Arith Bool Lia ZArith Reals Lra Psatz.
From Flocq Require Import Core Relative Plus_error BinarySingleNaN.
From Verif Require Import Scalar Linal Result ModelShapes ModelBox ModelRayBox SpecIEEE ProofRound ProofIEEE.
Import ListNotations.
Local Open Scope R_scope.

Section RayBoxF.
  Context {pr ex : Z} {Hpr : Prec_gt_0 pr} {Hex : Prec_lt_emax pr ex}.
  Notation bf := (binary_float pr ex).
  Notation rnd := (rndf pr ex).
  Notation fmt := (fmtf pr ex).
  Notation fsub := (@Bminus pr ex Hpr Hex mode_NE).
  Notation fmul := (@Bmult pr ex Hpr Hex mode_NE).
  Notation fdiv := (@Bdiv pr ex Hpr Hex mode_NE).
  Notation one := (ieee_pow pr ex Hpr Hex 1 0).
  Notation u := (bpow radix2 (- pr)).
  Notation pinf := (@B754_infinity pr ex false).
  Notation ninf := (@B754_infinity pr ex true).

  (** ** relative errors *)
  Lemma u_pos : 0 < u <= / 2.
  Proof.
    split; [apply bpow_gt_0|]. change (/ 2) with (bpow radix2 (-1)). apply bpow_le. pose proof (@emax_pos pr ex Hpr Hex). lia.
  Qed.
  Lemma half_u : / 2 * bpow radix2 (- pr + 1) = u.
  Proof. rewrite bpow_plus. cbn. lra. Qed.

  Lemma rnd_sub_rel (x y : bf) : exists e, Rabs e <= u /\ rnd (B2R x - B2R y) = (B2R x - B2R y) * (1 + e).
  Proof.
    destruct (FLT_plus_error_N_ex radix2 (3 - ex - pr) pr (fun n => negb (Z.even n)) (B2R x) (- B2R y)) as (e & He & E).
    - apply B2R_fmt.
    - apply generic_format_opp, B2R_fmt.
    - exists e. split; [|exact E]. eapply Rle_trans; [exact He|]. unfold u_ro. rewrite half_u.
      pose proof u_pos. apply (Rmult_le_reg_r (1 + u)); [lra|]. unfold Rdiv. rewrite Rmult_assoc, Rinv_l by lra. nra.
  Qed.
  Lemma rnd_rel x : bpow radix2 (2 - ex) <= Rabs x -> exists e, Rabs e <= u /\ rnd x = x * (1 + e).
  Proof.
    intros H. destruct (relative_error_N_FLT_ex radix2 (3 - ex - pr) pr Hpr (fun n => negb (Z.even n)) x) as (e & He & E).
    - replace (3 - ex - pr + pr - 1)%Z with (2 - ex)%Z by lia. exact H.
    - exists e. rewrite half_u in He. auto.
  Qed.
  Lemma rnd_gen x : exists e k, Rabs e <= u /\ Rabs k <= tiny pr ex /\ rnd x = x * (1 + e) + k.
  Proof.
    destruct (error_N_FLT radix2 (3 - ex - pr) pr Hpr (fun n => negb (Z.even n)) x) as (e & k & He & Hk & _ & E).
    rewrite half_u in He. exists e, k. split; [exact He|]. split; [|exact E]. unfold tiny. pose proof (bpow_gt_0 radix2 (3 - ex - pr)). lra.
  Qed.
  Lemma three_err e1 e2 e3 : Rabs e1 <= u -> Rabs e2 <= u -> Rabs e3 <= u -> Rabs ((1 + e1) * (1 + e2) * (1 + e3) - 1) <= gamma3 pr.
  Proof.
    intros H1 H2 H3. pose proof u_pos as (U1 & U2). unfold gamma3. set (v := u) in *. clearbody v. 
    replace ((1 + e1) * (1 + e2) * (1 + e3) - 1) with (e1 + e2 + e3 + (e1 * e2 + e1 * e3 + e2 * e3) + e1 * e2 * e3) by ring.
    replace ((1 + v) ^ 3 - 1) with (v + v + v + (v * v + v * v + v * v) + v * v * v) by ring.
    pose proof (Rabs_pos e1). pose proof (Rabs_pos e2). pose proof (Rabs_pos e3).
    assert (P12 : Rabs (e1 * e2) <= v * v) by (rewrite Rabs_mult; apply Rmult_le_compat; lra).
    assert (P13 : Rabs (e1 * e3) <= v * v) by (rewrite Rabs_mult; apply Rmult_le_compat; lra).
    assert (P23 : Rabs (e2 * e3) <= v * v) by (rewrite Rabs_mult; apply Rmult_le_compat; lra).
    assert (P123 : Rabs (e1 * e2 * e3) <= v * v * v) by (rewrite Rabs_mult; apply Rmult_le_compat; try lra; apply Rabs_pos).
    eapply Rle_trans; [apply Rabs_triang|]. apply Rplus_le_compat; [|exact P123].
    eapply Rle_trans; [apply Rabs_triang|]. apply Rplus_le_compat.
    - eapply Rle_trans; [apply Rabs_triang|]. apply Rplus_le_compat; [|exact H3]. eapply Rle_trans; [apply Rabs_triang|]. lra.
    - eapply Rle_trans; [apply Rabs_triang|]. apply Rplus_le_compat; [|exact P23]. eapply Rle_trans; [apply Rabs_triang|]. lra.
  Qed.
  Lemma gamma3_bound : 0 <= gamma3 pr <= 3.
  Proof. unfold gamma3. pose proof u_pos. set (v := u) in *. clearbody v. split; nra. Qed.

  (** ** one plane *)
  Definition planeT (o d c : bf) : bf := fmul (fsub c o) (fdiv one d).

  Lemma plane_err (o d c : bf) : fin o -> fin d -> fin c -> slab_range ex (B2R o) (B2R d) (B2R c) ->
    fin (planeT o d c) /\
    B2R (planeT o d c) = rnd (rnd (B2R c - B2R o) * rnd (1 / B2R d)) /\
    Rabs (B2R (planeT o d c) - (B2R c - B2R o) / B2R d) <= slab_margin pr ex (B2R o) (B2R d) (B2R c) / Rabs (B2R d).
  Proof.
    intros Fo Fd Fc ((D1 & D2) & C1 & C2). pose proof (@emax_pos pr ex Hpr Hex) as (P1 & P2). pose proof u_pos as (U1 & U2).
    pose proof (bpow_gt_0 radix2 (3 - ex)) as B0. assert (D0 : 0 < Rabs (B2R d)) by lra.
    assert (Dn : B2R d <> 0) by (intros E; rewrite E, Rabs_R0 in D0; lra).
    assert (Ai : Rabs (1 / B2R d) = / Rabs (B2R d)) by (unfold Rdiv; rewrite Rmult_1_l; apply Rabs_inv).
    assert (I1 : bpow radix2 (3 - ex) <= / Rabs (B2R d)).
    { replace (3 - ex)%Z with (- (ex - 3))%Z by lia. rewrite bpow_opp. apply Rinv_le; [exact D0|exact D2]. }
    assert (I2 : / Rabs (B2R d) <= bpow radix2 (ex - 3)).
    { replace (ex - 3)%Z with (- (3 - ex))%Z by lia. rewrite bpow_opp. apply Rinv_le; [exact B0|exact D1]. }
    assert (Q1 : bpow radix2 (ex - 3) = / 8 * bpow radix2 ex).
    { replace (ex - 3)%Z with (-3 + ex)%Z by lia. rewrite bpow_plus. reflexivity. }
    assert (Q2 : bpow radix2 (ex - 4) = / 16 * bpow radix2 ex).
    { replace (ex - 4)%Z with (-4 + ex)%Z by lia. rewrite bpow_plus. reflexivity. }
    pose proof (bpow_gt_0 radix2 ex) as Bx.
    destruct (rnd_sub_rel c o) as (e1 & H1 & E1).
    destruct (rnd_rel (1 / B2R d)) as (e2 & H2 & E2).
    { rewrite Ai. eapply Rle_trans; [|exact I1]. apply bpow_le. lia. }
    destruct (rnd_gen (rnd (B2R c - B2R o) * rnd (1 / B2R d))) as (e3 & k & H3 & Hk & E3).
    assert (A : forall e, Rabs e <= u -> Rabs (1 + e) <= 3 / 2).
    { intros e H. eapply Rle_trans; [apply Rabs_triang|]. rewrite Rabs_R1. lra. }
    destruct (sub_ok c o Fc Fo) as (F1 & V1).
    { rewrite E1, Rabs_mult. pose proof (A e1 H1). pose proof (Rabs_pos (B2R c - B2R o)). pose proof (Rabs_pos (1 + e1)). nra. }
    destruct (@one_spec pr ex Hpr Hex) as (Fone & Vone).
    destruct (div_ok one d Fone Dn) as (F2 & V2).
    { rewrite Vone, E2, Rabs_mult, Ai. pose proof (A e2 H2). pose proof (Rabs_pos (1 + e2)). nra. }
    rewrite Vone in V2.
    assert (Ep : rnd (B2R c - B2R o) * rnd (1 / B2R d) * (1 + e3) = (B2R c - B2R o) / B2R d * ((1 + e1) * (1 + e2) * (1 + e3))).
    { rewrite E1, E2. field. exact Dn. }
    assert (Aq : Rabs ((B2R c - B2R o) / B2R d) <= / 16 * bpow radix2 ex).
    { unfold Rdiv. rewrite Rabs_mult, Rabs_inv. apply (Rmult_le_reg_r (Rabs (B2R d))); [exact D0|].
      rewrite Rmult_assoc, Rinv_l, Rmult_1_r by lra. rewrite <- Q2. exact C2. }
    assert (Err : Rabs (rnd (rnd (B2R c - B2R o) * rnd (1 / B2R d)) - (B2R c - B2R o) / B2R d) <= slab_margin pr ex (B2R o) (B2R d) (B2R c) / Rabs (B2R d)).
    { rewrite E3, Ep. set (q := (B2R c - B2R o) / B2R d) in *.
      replace (q * ((1 + e1) * (1 + e2) * (1 + e3)) + k - q) with (q * ((1 + e1) * (1 + e2) * (1 + e3) - 1) + k) by ring.
      eapply Rle_trans; [apply Rabs_triang|]. unfold slab_margin.
      replace ((gamma3 pr * Rabs (B2R c - B2R o) + tiny pr ex * Rabs (B2R d)) / Rabs (B2R d))
        with (Rabs q * gamma3 pr + tiny pr ex).
      2: { unfold q, Rdiv. rewrite Rabs_mult, Rabs_inv. field. lra. }
      apply Rplus_le_compat; [|exact Hk]. rewrite Rabs_mult. apply Rmult_le_compat_l; [apply Rabs_pos|]. apply three_err; assumption. }
    assert (Hbig : Rabs (rnd (rnd (B2R c - B2R o) * rnd (1 / B2R d))) < bpow radix2 ex).
    { rewrite E3, Ep. eapply Rle_lt_trans; [apply Rabs_triang|]. rewrite !Rabs_mult.
      pose proof (A e1 H1) as A1. pose proof (A e2 H2) as A2. pose proof (A e3 H3) as A3.
      assert (tiny pr ex <= / 4 * bpow radix2 ex).
      { unfold tiny. change (/ 4) with (bpow radix2 (-2)). rewrite <- bpow_plus. apply bpow_le. lia. }
      pose proof (Rabs_pos (1 + e1)). pose proof (Rabs_pos (1 + e2)). pose proof (Rabs_pos (1 + e3)).
      assert (Rabs (1 + e1) * Rabs (1 + e2) <= 9 / 4) by nra.
      assert (Rabs (1 + e1) * Rabs (1 + e2) * Rabs (1 + e3) <= 27 / 8) by nra.
      assert (0 <= Rabs (1 + e1) * Rabs (1 + e2) * Rabs (1 + e3)) by (repeat apply Rmult_le_pos; lra).
      pose proof (Rabs_pos ((B2R c - B2R o) / B2R d)). nra. }
    unfold planeT. destruct (mul_ok (fsub c o) (fdiv one d) F1 F2) as (F3 & V3).
    { rewrite V1, V2. exact Hbig. }
    rewrite V1, V2 in V3. split; [exact F3|]. split; [exact V3|]. rewrite V3. exact Err.
  Qed.

  Lemma plane_mono (o d c c' : bf) : fin o -> fin d -> fin c -> fin c' ->
    slab_range ex (B2R o) (B2R d) (B2R c) -> slab_range ex (B2R o) (B2R d) (B2R c') -> B2R c <= B2R c' ->
    (0 < B2R d -> B2R (planeT o d c) <= B2R (planeT o d c')) /\ (B2R d < 0 -> B2R (planeT o d c') <= B2R (planeT o d c)).
  Proof.
    intros Fo Fd Fc Fc' R1 R2 H. destruct (plane_err o d c Fo Fd Fc R1) as (_ & -> & _). destruct (plane_err o d c' Fo Fd Fc' R2) as (_ & -> & _).
    assert (K : rnd (B2R c - B2R o) <= rnd (B2R c' - B2R o)) by (apply rnd_le; lra).
    split; intros D; apply rnd_le.
    - apply Rmult_le_compat_r; [|exact K]. apply rnd_nonneg. unfold Rdiv. rewrite Rmult_1_l. left. apply Rinv_0_lt_compat, D.
    - assert (N : rnd (1 / B2R d) <= 0).
      { rewrite <- (@rnd_0 pr ex). apply rnd_le. unfold Rdiv. rewrite Rmult_1_l. left. apply Rinv_lt_0_compat, D. }
      nra.
  Qed.

  (** ** lower and upper limits, possibly infinite *)
  Definition lolim (x : bf) := x = ninf \/ fin x.
  Definition hilim (x : bf) := x = pinf \/ fin x.
  Definition le_lo (x : bf) (r : R) := x = ninf \/ (fin x /\ B2R x <= r).
  Definition ge_hi (x : bf) (r : R) := x = pinf \/ (fin x /\ r <= B2R x).
  Definition fmax (x y : bf) : bf := if Bltb x y then y else x.
  Definition fmin (x y : bf) : bf := if Bltb y x then y else x.

  Lemma fmax_lo x y : lolim x -> lolim y -> lolim (fmax x y) /\ (fin x \/ fin y -> fin (fmax x y)) /\
    forall r, le_lo (fmax x y) r <-> le_lo x r /\ le_lo y r.
  Proof.
    intros [->|Fx] [->|Fy]; unfold fmax.
    - cbn. split; [left; reflexivity|]. split; [intros [H|H]; discriminate|]. intros r. unfold le_lo. tauto.
    - assert (Bltb ninf y = true) as -> by (destruct y as [| | |[] ? ? ?]; try discriminate; reflexivity).
      split; [right; exact Fy|]. split; [auto|]. intros r. unfold le_lo. tauto.
    - assert (Bltb x ninf = false) as -> by (destruct x as [| | |[] ? ? ?]; try discriminate; reflexivity).
      split; [right; exact Fx|]. split; [auto|]. intros r. unfold le_lo. tauto.
    - assert (NX : x <> ninf) by (intros ->; discriminate). assert (NY : y <> ninf) by (intros ->; discriminate).
      rewrite Bltb_correct by assumption. unfold le_lo, lolim. destruct (Rlt_bool_spec (B2R x) (B2R y)).
      + split; [auto|]. split; [auto|]. intros r. split; [intros [E|(_ & K)]; [contradiction|]|intros (_ & K); exact K].
        split; right; (split; [assumption|lra]).
      + split; [auto|]. split; [auto|]. intros r. split; [intros [E|(_ & K)]; [contradiction|]|intros (K & _); exact K].
        split; right; (split; [assumption|lra]).
  Qed.
  Lemma fmin_hi x y : hilim x -> hilim y -> hilim (fmin x y) /\ (fin x \/ fin y -> fin (fmin x y)) /\
    forall r, ge_hi (fmin x y) r <-> ge_hi x r /\ ge_hi y r.
  Proof.
    intros [->|Fx] [->|Fy]; unfold fmin.
    - cbn. split; [left; reflexivity|]. split; [intros [H|H]; discriminate|]. intros r. unfold ge_hi. tauto.
    - assert (Bltb y pinf = true) as -> by (destruct y as [| | |[] ? ? ?]; try discriminate; reflexivity).
      split; [right; exact Fy|]. split; [auto|]. intros r. unfold ge_hi. tauto.
    - assert (Bltb pinf x = false) as -> by (destruct x as [| | |[] ? ? ?]; try discriminate; reflexivity).
      split; [right; exact Fx|]. split; [auto|]. intros r. unfold ge_hi. tauto.
    - assert (NX : x <> pinf) by (intros ->; discriminate). assert (NY : y <> pinf) by (intros ->; discriminate).
      rewrite Bltb_correct by assumption. unfold ge_hi, hilim. destruct (Rlt_bool_spec (B2R y) (B2R x)).
      + split; [auto|]. split; [auto|]. intros r. split; [intros [E|(_ & K)]; [contradiction|]|intros (_ & K); exact K].
        split; right; (split; [assumption|lra]).
      + split; [auto|]. split; [auto|]. intros r. split; [intros [E|(_ & K)]; [contradiction|]|intros (K & _); exact K].
        split; right; (split; [assumption|lra]).
  Qed.
  Lemma fminmax_fin x y : fin x -> fin y ->
    fin (fmin x y) /\ fin (fmax x y) /\ B2R (fmin x y) = Rmin (B2R x) (B2R y) /\ B2R (fmax x y) = Rmax (B2R x) (B2R y).
  Proof.
    intros Fx Fy. unfold fmin, fmax. rewrite !Bltb_correct by assumption. unfold Rmin, Rmax.
    destruct (Rlt_bool_spec (B2R x) (B2R y)), (Rlt_bool_spec (B2R y) (B2R x)), (Rle_dec (B2R x) (B2R y)); repeat split; try assumption; lra.
  Qed.

  (** ** one axis *)
  Context (f g h : bf -> bf) (fpi : bf).
  Let S := IEEE pr ex Hpr Hex f g h fpi.
  Context (L : Linal S) (t : R) (HL : LinalF L t).

  Definition slabF (o d mn mx : bf) : option (bf * bf) :=
    if isZero L (leps L) d then
      if isLess L (leps L) o mn || isGreater L (leps L) o mx then None else Some (ninf, pinf)
    else Some (fmin (planeT o d mn) (planeT o d mx), fmax (planeT o d mn) (planeT o d mx)).
  Lemma slabF_eq (o d mn mx : bf) : slab_axis L (o : S) d mn mx = slabF o d mn mx.
  Proof.
    unfold slab_axis, slabF, inv_component, planeT. destruct (isZero L (leps L) d); reflexivity.
  Qed.

  (** the axis is usable: the direction is 0 or beyond the tolerance, and nothing overflows *)
  Definition axis_ok (o d mn mx : bf) : Prop :=
    fin o /\ fin d /\ fin mn /\ fin mx /\
    (B2R d = 0 \/ (t < Rabs (B2R d) /\ slab_range ex (B2R o) (B2R d) (B2R mn) /\ slab_range ex (B2R o) (B2R d) (B2R mx))).

  Lemma zero_true (d : bf) : fin d -> B2R d = 0 -> isZero L (leps L) d = true.
  Proof. exact (lf_zero_0 L t HL d). Qed.
  Lemma zero_false (d : bf) : fin d -> t < Rabs (B2R d) -> isZero L (leps L) d = false.
  Proof. intros Fd H. destruct (isZero L (leps L) d) eqn:E; [|reflexivity]. exfalso. pose proof (lf_zero_1 L t HL d Fd E). lra. Qed.

  Lemma axis_complete (o d mn mx : bf) r : axis_ok o d mn mx ->
    (B2R d = 0 -> B2R mn <= B2R o <= B2R mx) ->
    (B2R d <> 0 -> B2R mn + slab_margin pr ex (B2R o) (B2R d) (B2R mn) <= B2R o + r * B2R d <= B2R mx - slab_margin pr ex (B2R o) (B2R d) (B2R mx)) ->
    exists l hh, slabF o d mn mx = Some (l, hh) /\ lolim l /\ hilim hh /\ le_lo l r /\ ge_hi hh r /\ (B2R d <> 0 -> fin l /\ fin hh).
  Proof.
    intros (Fo & Fd & Fm & Fx & Hd) H0 H1. unfold slabF. destruct Hd as [Z|(Ht & Rm & Rx)].
    - rewrite (zero_true d Fd Z). specialize (H0 Z).
      assert (isLess L (leps L) o mn = false) as ->.
      { destruct (isLess L (leps L) o mn) eqn:E; [|reflexivity]. exfalso. pose proof (lf_less_1 L t HL o mn Fo Fm E). lra. }
      assert (isGreater L (leps L) o mx = false) as ->.
      { destruct (isGreater L (leps L) o mx) eqn:E; [|reflexivity]. exfalso. pose proof (lf_greater_1 L t HL o mx Fo Fx E). lra. }
      cbn. exists ninf, pinf. split; [reflexivity|]. unfold lolim, hilim, le_lo, ge_hi.
      split; [auto|]. split; [auto|]. split; [auto|]. split; [auto|]. intros N. contradiction.
    - rewrite (zero_false d Fd Ht). eexists. eexists. split; [reflexivity|].
      destruct (plane_err o d mn Fo Fd Fm Rm) as (F1 & _ & E1). destruct (plane_err o d mx Fo Fd Fx Rx) as (F2 & _ & E2).
      destruct (fminmax_fin _ _ F1 F2) as (Fl & Fh & Vl & Vh).
      pose proof (lf_slack L t HL) as T0. assert (Dn : B2R d <> 0) by (intros E; rewrite E, Rabs_R0 in Ht; lra). specialize (H1 Dn).
      set (a := slab_margin pr ex (B2R o) (B2R d) (B2R mn)) in *. set (b := slab_margin pr ex (B2R o) (B2R d) (B2R mx)) in *.
      apply Rabs_le_inv in E1. apply Rabs_le_inv in E2.
      assert (K : Rmin (B2R (planeT o d mn)) (B2R (planeT o d mx)) <= r <= Rmax (B2R (planeT o d mn)) (B2R (planeT o d mx))).
      { destruct (Rlt_le_dec 0 (B2R d)) as [D|D].
        - rewrite (Rabs_pos_eq (B2R d)) in * by lra.
          assert (X1 : (B2R mn - B2R o) / B2R d + a / B2R d <= r).
          { apply (Rmult_le_reg_r (B2R d)); [exact D|]. unfold Rdiv. rewrite Rmult_plus_distr_r, !Rmult_assoc, Rinv_l by lra. lra. }
          assert (X2 : r <= (B2R mx - B2R o) / B2R d - b / B2R d).
          { apply (Rmult_le_reg_r (B2R d)); [exact D|]. unfold Rdiv. rewrite Rmult_minus_distr_r, !Rmult_assoc, Rinv_l by lra. lra. }
          split; [eapply Rle_trans; [apply Rmin_l|lra]|eapply Rle_trans; [|apply Rmax_r]; lra].
        - assert (D' : B2R d < 0) by lra. rewrite (Rabs_left (B2R d)) in * by lra.
          assert (X1 : (B2R mx - B2R o) / B2R d + b / - B2R d <= r).
          { apply (Rmult_le_reg_r (- B2R d)); [lra|]. unfold Rdiv. rewrite Rmult_plus_distr_r.
            replace ((B2R mx - B2R o) * / B2R d * - B2R d) with (- (B2R mx - B2R o)) by (field; lra).
            replace (b * / - B2R d * - B2R d) with b by (field; lra). lra. }
          assert (X2 : r <= (B2R mn - B2R o) / B2R d - a / - B2R d).
          { apply (Rmult_le_reg_r (- B2R d)); [lra|]. unfold Rdiv. rewrite Rmult_minus_distr_r.
            replace ((B2R mn - B2R o) * / B2R d * - B2R d) with (- (B2R mn - B2R o)) by (field; lra).
            replace (a * / - B2R d * - B2R d) with a by (field; lra). lra. }
          split; [eapply Rle_trans; [apply Rmin_r|lra]|eapply Rle_trans; [|apply Rmax_l]; lra]. }
      unfold lolim, hilim, le_lo, ge_hi. rewrite Vl, Vh. split; [auto|]. split; [auto|].
      split; [right; split; [exact Fl|apply K]|]. split; [right; split; [exact Fh|apply K]|]. auto.
  Qed.

  Lemma axis_sound (o d mn mx l hh : bf) : axis_ok o d mn mx -> B2R mn <= B2R mx -> slabF o d mn mx = Some (l, hh) ->
    lolim l /\ hilim hh /\ (B2R d <> 0 -> fin l /\ fin hh) /\
    (B2R d = 0 -> B2R mn - t <= B2R o <= B2R mx + t) /\
    (B2R d <> 0 -> forall r s, le_lo l r -> ge_hi hh s -> s <= r <= s + t ->
       B2R mn - (slab_margin pr ex (B2R o) (B2R d) (B2R mn) + t * Rabs (B2R d)) <= B2R o + r * B2R d <=
       B2R mx + (slab_margin pr ex (B2R o) (B2R d) (B2R mx) + t * Rabs (B2R d))).
  Proof.
    intros (Fo & Fd & Fm & Fx & Hd) Hle. unfold slabF. pose proof (lf_slack L t HL) as T0. destruct Hd as [Z|(Ht & Rm & Rx)].
    - rewrite (zero_true d Fd Z). destruct (isLess L (leps L) o mn) eqn:E1; [discriminate|]. destruct (isGreater L (leps L) o mx) eqn:E2; [discriminate|].
      cbn. intros [= <- <-]. split; [left; reflexivity|]. split; [left; reflexivity|]. split; [intros N; contradiction|]. split; [|intros N; contradiction].
      intros _. split.
      + apply Rnot_lt_le. intros H. refine (Bool.eq_true_false_abs _ (lf_less_0 L t HL o mn Fo Fm _) E1). lra.
      + apply Rnot_lt_le. intros H. refine (Bool.eq_true_false_abs _ (lf_greater_0 L t HL o mx Fo Fx _) E2). lra.
    - rewrite (zero_false d Fd Ht). intros [= <- <-].
      destruct (plane_err o d mn Fo Fd Fm Rm) as (F1 & _ & E1). destruct (plane_err o d mx Fo Fd Fx Rx) as (F2 & _ & E2).
      destruct (plane_mono o d mn mx Fo Fd Fm Fx Rm Rx Hle) as (M1 & M2).
      destruct (fminmax_fin _ _ F1 F2) as (Fl & Fh & Vl & Vh).
      assert (Dn : B2R d <> 0) by (intros E; rewrite E, Rabs_R0 in Ht; lra).
      split; [right; exact Fl|]. split; [right; exact Fh|]. split; [auto|]. split; [intros Z; contradiction|].
      intros _ r s [E|(_ & Hl)] Hh; [rewrite E in Fl; discriminate|]. destruct Hh as [E|(_ & Hh)]; [rewrite E in Fh; discriminate|]. intros Hrs.
      rewrite Vl in Hl. rewrite Vh in Hh.
      set (a := slab_margin pr ex (B2R o) (B2R d) (B2R mn)) in *. set (b := slab_margin pr ex (B2R o) (B2R d) (B2R mx)) in *.
      apply Rabs_le_inv in E1. apply Rabs_le_inv in E2.
      destruct (Rlt_le_dec 0 (B2R d)) as [D|D].
      + specialize (M1 D). rewrite Rmin_left in Hl by exact M1. rewrite Rmax_right in Hh by exact M1.
        rewrite (Rabs_pos_eq (B2R d)) in * by lra.
        assert (X1 : (B2R mn - B2R o) / B2R d - a / B2R d <= r) by lra.
        assert (X2 : s <= (B2R mx - B2R o) / B2R d + b / B2R d) by lra.
        apply (Rmult_le_compat_r (B2R d)) in X1; [|lra]. apply (Rmult_le_compat_r (B2R d)) in X2; [|lra].
        unfold Rdiv in X1, X2. rewrite Rmult_minus_distr_r, !Rmult_assoc, Rinv_l in X1 by lra.
        rewrite Rmult_plus_distr_r, !Rmult_assoc, Rinv_l in X2 by lra. split; nra.
      + assert (D' : B2R d < 0) by lra. specialize (M2 D'). rewrite Rmin_right in Hl by exact M2. rewrite Rmax_left in Hh by exact M2.
        rewrite (Rabs_left (B2R d)) in * by lra.
        assert (X1 : (B2R mx - B2R o) / B2R d - b / - B2R d <= r) by lra.
        assert (X2 : s <= (B2R mn - B2R o) / B2R d + a / - B2R d) by lra.
        apply (Rmult_le_compat_r (- B2R d)) in X1; [|lra]. apply (Rmult_le_compat_r (- B2R d)) in X2; [|lra].
        replace (((B2R mx - B2R o) / B2R d - b / - B2R d) * - B2R d) with (- (B2R mx - B2R o) - b) in X1 by (field; lra).
        replace (((B2R mn - B2R o) / B2R d + a / - B2R d) * - B2R d) with (- (B2R mn - B2R o) + a) in X2 by (field; lra).
        split; nra.
  Qed.

  (** ** the whole test *)
  Definition intervalF (a b c : option (bf * bf)) : bf * bf :=
    match a with
    | None => (@Bmax_float pr ex Hpr Hex, Bopp (@Bmax_float pr ex Hpr Hex))
    | Some (l0, h0) =>
      match b with
      | None => (@Bmax_float pr ex Hpr Hex, Bopp (@Bmax_float pr ex Hpr Hex))
      | Some (l1, h1) =>
        match c with
        | None => (@Bmax_float pr ex Hpr Hex, Bopp (@Bmax_float pr ex Hpr Hex))
        | Some (l2, h2) => (fmax l0 (fmax l1 l2), fmin h0 (fmin h1 h2))
        end
      end
    end.
  Lemma intervalF_eq (o0 o1 o2 d0 d1 d2 m0 m1 m2 x0 x1 x2 : bf) :
    ray_interval L (mkRay (mk3 o0 o1 o2 : vec S 3) (mk3 d0 d1 d2)) (mkAABB (mk3 m0 m1 m2 : vec S 3) (mk3 x0 x1 x2)) =
    intervalF (slabF o0 d0 m0 x0) (slabF o1 d1 m1 x1) (slabF o2 d2 m2 x2).
  Proof.
    unfold ray_interval. cbn [r_origin r_dir a_min a_max mk3]. rewrite !slabF_eq.
    destruct (slabF o0 d0 m0 x0) as [[l0 h0]|]; [|reflexivity]. destruct (slabF o1 d1 m1 x1) as [[l1 h1]|]; [|reflexivity].
    destruct (slabF o2 d2 m2 x2) as [[l2 h2]|]; reflexivity.
  Qed.

  Lemma test_complete (o0 o1 o2 d0 d1 d2 m0 m1 m2 x0 x1 x2 : bf) r : 0 <= r ->
    axis_ok o0 d0 m0 x0 -> axis_ok o1 d1 m1 x1 -> axis_ok o2 d2 m2 x2 -> (B2R d0 <> 0 \/ B2R d1 <> 0 \/ B2R d2 <> 0) ->
    (forall o d mn mx, In (o, d, mn, mx) [(o0, d0, m0, x0); (o1, d1, m1, x1); (o2, d2, m2, x2)] ->
      (B2R d = 0 -> B2R mn <= B2R o <= B2R mx) /\
      (B2R d <> 0 -> B2R mn + slab_margin pr ex (B2R o) (B2R d) (B2R mn) <= B2R o + r * B2R d <= B2R mx - slab_margin pr ex (B2R o) (B2R d) (B2R mx))) ->
    ray_box_is_intersecting L (mkRay (mk3 o0 o1 o2 : vec S 3) (mk3 d0 d1 d2)) (mkAABB (mk3 m0 m1 m2 : vec S 3) (mk3 x0 x1 x2)) = true.
  Proof.
    intros Hr A0 A1 A2 Hd H. unfold ray_box_is_intersecting. rewrite intervalF_eq.
    destruct (H o0 d0 m0 x0 ltac:(cbn; auto)) as (Z0 & N0). destruct (H o1 d1 m1 x1 ltac:(cbn; auto)) as (Z1 & N1). destruct (H o2 d2 m2 x2 ltac:(cbn; auto)) as (Z2 & N2).
    destruct (axis_complete o0 d0 m0 x0 r A0 Z0 N0) as (l0 & h0 & -> & LL0 & HH0 & L0 & G0 & F0).
    destruct (axis_complete o1 d1 m1 x1 r A1 Z1 N1) as (l1 & h1 & -> & LL1 & HH1 & L1 & G1 & F1).
    destruct (axis_complete o2 d2 m2 x2 r A2 Z2 N2) as (l2 & h2 & -> & LL2 & HH2 & L2 & G2 & F2). cbn [intervalF].
    destruct (fmax_lo l1 l2 LL1 LL2) as (X1 & X2 & X3). destruct (fmax_lo l0 (fmax l1 l2) LL0 X1) as (_ & Y2 & Y3).
    destruct (fmin_hi h1 h2 HH1 HH2) as (U1 & U2 & U3). destruct (fmin_hi h0 (fmin h1 h2) HH0 U1) as (_ & V2 & V3).
    assert (Ffin : fin (fmax l0 (fmax l1 l2)) /\ fin (fmin h0 (fmin h1 h2))).
    { destruct Hd as [Hd|[Hd|Hd]].
      - destruct (F0 Hd) as (Q1 & Q2). exact (conj (Y2 (or_introl Q1)) (V2 (or_introl Q2))).
      - destruct (F1 Hd) as (Q1 & Q2). exact (conj (Y2 (or_intror (X2 (or_introl Q1)))) (V2 (or_intror (U2 (or_introl Q2))))).
      - destruct (F2 Hd) as (Q1 & Q2). exact (conj (Y2 (or_intror (X2 (or_intror Q1)))) (V2 (or_intror (U2 (or_intror Q2))))). }
    destruct Ffin as (Fl & Fh).
    assert (Kl : le_lo (fmax l0 (fmax l1 l2)) r) by (apply Y3; split; [exact L0|]; apply X3; auto).
    assert (Kh : ge_hi (fmin h0 (fmin h1 h2)) r) by (apply V3; split; [exact G0|]; apply U3; auto).
    destruct Kl as [E|(_ & Kl)]; [rewrite E in Fl; discriminate|]. destruct Kh as [E|(_ & Kh)]; [rewrite E in Fh; discriminate|].
    apply andb_true_intro. split.
    - apply (lf_lesseq_0 L t HL); try assumption. lra.
    - apply (lf_greatereq_0 L t HL); [exact Fh|reflexivity|]. cbn. lra.
  Qed.

  Lemma test_sound (o0 o1 o2 d0 d1 d2 m0 m1 m2 x0 x1 x2 : bf) : t < bpow radix2 ex ->
    axis_ok o0 d0 m0 x0 -> axis_ok o1 d1 m1 x1 -> axis_ok o2 d2 m2 x2 -> (B2R d0 <> 0 \/ B2R d1 <> 0 \/ B2R d2 <> 0) ->
    B2R m0 <= B2R x0 -> B2R m1 <= B2R x1 -> B2R m2 <= B2R x2 ->
    ray_box_is_intersecting L (mkRay (mk3 o0 o1 o2 : vec S 3) (mk3 d0 d1 d2)) (mkAABB (mk3 m0 m1 m2 : vec S 3) (mk3 x0 x1 x2)) = true ->
    exists r, 0 <= r /\ forall o d mn mx, In (o, d, mn, mx) [(o0, d0, m0, x0); (o1, d1, m1, x1); (o2, d2, m2, x2)] ->
      (B2R d = 0 -> B2R mn - t <= B2R o <= B2R mx + t) /\
      (B2R d <> 0 ->
       B2R mn - (slab_margin pr ex (B2R o) (B2R d) (B2R mn) + t * Rabs (B2R d)) <= B2R o + r * B2R d <=
       B2R mx + (slab_margin pr ex (B2R o) (B2R d) (B2R mx) + t * Rabs (B2R d))).
  Proof.
    intros Ht A0 A1 A2 Hd M0 M1 M2. unfold ray_box_is_intersecting. rewrite intervalF_eq. pose proof (lf_slack L t HL) as T0.
    assert (Bad : isLessEq L (leps L) (@Bmax_float pr ex Hpr Hex) (Bopp (@Bmax_float pr ex Hpr Hex)) = false).
    { destruct (@max_spec pr ex Hpr Hex) as (Fm & Vm). destruct (isLessEq L _ _ _) eqn:E; [exfalso|reflexivity].
      apply (lf_lesseq_1 L t HL) in E; [|exact Fm|rewrite is_finite_Bopp; exact Fm]. rewrite B2R_Bopp, Vm in E.
      assert (bpow radix2 (ex - pr) <= / 2 * bpow radix2 ex).
      { change (/ 2) with (bpow radix2 (-1)). rewrite <- bpow_plus. apply bpow_le. pose proof (@emax_pos pr ex Hpr Hex). lia. }
      lra. }
    destruct (slabF o0 d0 m0 x0) as [[l0 h0]|] eqn:E0; [|cbn [intervalF]; rewrite Bad; discriminate].
    destruct (slabF o1 d1 m1 x1) as [[l1 h1]|] eqn:E1; [|cbn [intervalF]; rewrite Bad; discriminate].
    destruct (slabF o2 d2 m2 x2) as [[l2 h2]|] eqn:E2; [|cbn [intervalF]; rewrite Bad; discriminate].
    cbn [intervalF].
    destruct (axis_sound o0 d0 m0 x0 l0 h0 A0 M0 E0) as (LL0 & HH0 & F0 & Z0 & N0).
    destruct (axis_sound o1 d1 m1 x1 l1 h1 A1 M1 E1) as (LL1 & HH1 & F1 & Z1 & N1).
    destruct (axis_sound o2 d2 m2 x2 l2 h2 A2 M2 E2) as (LL2 & HH2 & F2 & Z2 & N2).
    destruct (fmax_lo l1 l2 LL1 LL2) as (X1 & X2 & X3). destruct (fmax_lo l0 (fmax l1 l2) LL0 X1) as (_ & Y2 & Y3).
    destruct (fmin_hi h1 h2 HH1 HH2) as (U1 & U2 & U3). destruct (fmin_hi h0 (fmin h1 h2) HH0 U1) as (_ & V2 & V3).
    assert (Ffin : fin (fmax l0 (fmax l1 l2)) /\ fin (fmin h0 (fmin h1 h2))).
    { destruct Hd as [Hd|[Hd|Hd]].
      - destruct (F0 Hd) as (Q1 & Q2). exact (conj (Y2 (or_introl Q1)) (V2 (or_introl Q2))).
      - destruct (F1 Hd) as (Q1 & Q2). exact (conj (Y2 (or_intror (X2 (or_introl Q1)))) (V2 (or_intror (U2 (or_introl Q2))))).
      - destruct (F2 Hd) as (Q1 & Q2). exact (conj (Y2 (or_intror (X2 (or_intror Q1)))) (V2 (or_intror (U2 (or_intror Q2))))). }
    destruct Ffin as (Fl & Fh). set (lo := fmax l0 (fmax l1 l2)) in *. set (hi := fmin h0 (fmin h1 h2)) in *.
    intros H. apply andb_prop in H as [Ha Hb].
    apply (lf_lesseq_1 L t HL lo hi Fl Fh) in Ha. apply (lf_greatereq_1 L t HL hi (@B754_zero pr ex false) Fh eq_refl) in Hb. cbn in Hb.
    pose (r := Rmax 0 (Rmax (B2R lo) (B2R hi))).
    assert (R0 : 0 <= r) by apply Rmax_l.
    assert (R1 : B2R lo <= r) by (unfold r; eapply Rle_trans; [apply Rmax_l|apply Rmax_r]).
    assert (R2 : B2R hi <= r) by (unfold r; eapply Rle_trans; [apply Rmax_r|apply Rmax_r]).
    assert (R3 : r <= B2R hi + t) by (unfold r; apply Rmax_lub; [lra|]; apply Rmax_lub; lra).
    assert (Kl : le_lo lo r) by (right; auto). assert (Kh : ge_hi hi (B2R hi)) by (right; split; [exact Fh|apply Rle_refl]).
    apply Y3 in Kl as (K0 & Kl). apply X3 in Kl as (K1 & K2). apply V3 in Kh as (J0 & Kh). apply U3 in Kh as (J1 & J2).
    exists r. split; [exact R0|]. intros o d mn mx Hin. cbn in Hin. destruct Hin as [[= <- <- <- <-]|[[= <- <- <- <-]|[[= <- <- <- <-]|[]]]].
    - split; [exact Z0|]. intros N. exact (N0 N r (B2R hi) K0 J0 (conj R2 R3)).
    - split; [exact Z1|]. intros N. exact (N1 N r (B2R hi) K1 J1 (conj R2 R3)).
    - split; [exact Z2|]. intros N. exact (N2 N r (B2R hi) K2 J2 (conj R2 R3)).
  Qed.
End RayBoxF.
