(** * The entry and exit points of a ray and a box in floating point *)

From Coq Require Import List Arith Bool Lia ZArith Reals Lra Psatz.
From Flocq Require Import Core Relative Plus_error BinarySingleNaN.
From Verif Require Import Scalar Linal Result ModelShapes ModelBox ModelRayBox SpecIEEE SpecFloatHits ProofRound ProofIEEE ProofRayBoxIEEE.
Import ListNotations.
Local Open Scope R_scope.

Section Hits.
  Context {pr ex : Z} {Hpr : Prec_gt_0 pr} {Hex : Prec_lt_emax pr ex}.
  Notation bf := (binary_float pr ex).
  Notation rnd := (rndf pr ex).
  Notation fadd := (@Bplus pr ex Hpr Hex mode_NE).
  Notation fmul := (@Bmult pr ex Hpr Hex mode_NE).
  Notation u := (bpow radix2 (- pr)).
  Notation pinf := (@B754_infinity pr ex false).
  Notation ninf := (@B754_infinity pr ex true).
  Context (H7 : (7 <= pr)%Z).

  Lemma u_small : 0 < u <= / 128.
  Proof. split; [apply bpow_gt_0|]. change (/ 128) with (bpow radix2 (-7)). apply bpow_le. lia. Qed.
  Lemma tiny_pos : 0 < tiny pr ex.
  Proof. apply bpow_gt_0. Qed.
  Lemma gamma_small : 0 <= gamma3 pr <= 4 * u.
  Proof. unfold gamma3. pose proof u_small. set (v := u) in *. clearbody v. split; nra. Qed.

  Definition mg (o d c : bf) : R := slab_margin pr ex (B2R o) (B2R d) (B2R c).
  Lemma mg_pos o d c : 0 <= mg o d c.
  Proof.
    unfold mg, slab_margin. pose proof gamma_small. pose proof tiny_pos. pose proof (Rabs_pos (B2R c - B2R o)). pose proof (Rabs_pos (B2R d)).
    apply Rplus_le_le_0_compat; apply Rmult_le_pos; lra.
  Qed.

  (** ** one coordinate of the point *)
  Lemma coordinate (o d t : bf) : fin o -> fin d -> fin t ->
    Rabs (B2R o) <= bpow radix2 (ex - 2) -> Rabs (B2R t * B2R d) <= bpow radix2 (ex - 3) ->
    fin (fadd o (fmul t d)) /\
    Rabs (B2R (fadd o (fmul t d)) - (B2R o + B2R t * B2R d)) <= 3 * u * (Rabs (B2R o) + Rabs (B2R t * B2R d)) + 2 * tiny pr ex /\
    (B2R d = 0 -> B2R (fadd o (fmul t d)) = B2R o).
  Proof.
    intros Fo Fd Ft Ho Ht. pose proof u_small as (u0 & u1). pose proof tiny_pos as t0.
    assert (Q2 : bpow radix2 (ex - 2) = / 4 * bpow radix2 ex).
    { replace (ex - 2)%Z with (-2 + ex)%Z by lia. rewrite bpow_plus. reflexivity. }
    assert (Q3 : bpow radix2 (ex - 3) = / 8 * bpow radix2 ex).
    { replace (ex - 3)%Z with (-3 + ex)%Z by lia. rewrite bpow_plus. reflexivity. }
    pose proof (bpow_gt_0 radix2 ex) as Bx. pose proof (@emax_pos pr ex Hpr Hex) as (P1 & P2).
    assert (tb : tiny pr ex <= / 16 * bpow radix2 ex).
    { unfold tiny. change (/ 16) with (bpow radix2 (-4)). rewrite <- bpow_plus. apply bpow_le. lia. }
    set (x := B2R t * B2R d) in *. set (a := B2R o) in *.
    destruct (rnd_gen (pr := pr) (ex := ex) x) as (e1 & k & H1 & Hk & E1).
    assert (Ax : Rabs (x * e1) <= u * Rabs x) by (rewrite Rabs_mult, Rmult_comm; apply Rmult_le_compat_r; [apply Rabs_pos|exact H1]).
    assert (ux : u * Rabs x <= / 128 * Rabs x) by (apply Rmult_le_compat_r; [apply Rabs_pos|exact u1]).
    assert (R1 : Rabs (rnd x) <= Rabs x + u * Rabs x + tiny pr ex).
    { rewrite E1. replace (x * (1 + e1) + k) with (x + x * e1 + k) by ring. eapply Rle_trans; [apply Rabs_triang|].
      apply Rplus_le_compat; [|exact Hk]. eapply Rle_trans; [apply Rabs_triang|]. lra. }
    destruct (mul_ok t d Ft Fd) as (Fm & Vm).
    { fold x. eapply Rle_lt_trans; [exact R1|]. lra. }
    fold x in Vm.
    destruct (rnd_sub_rel (pr := pr) (ex := ex) o (Bopp (fmul t d))) as (e2 & H2 & E2).
    rewrite B2R_Bopp, Vm in E2. fold a in E2. replace (a - - rnd x) with (a + rnd x) in E2 by ring.
    assert (R2 : Rabs ((a + rnd x) * e2) <= u * (Rabs a + (Rabs x + u * Rabs x + tiny pr ex))).
    { rewrite Rabs_mult, Rmult_comm. apply Rmult_le_compat; try apply Rabs_pos; [exact H2|]. eapply Rle_trans; [apply Rabs_triang|]. lra. }
    assert (ub : forall z, 0 <= z -> u * z <= / 128 * z) by (intros z Hz; apply Rmult_le_compat_r; assumption).
    pose proof (Rabs_pos a) as pa. pose proof (Rabs_pos x) as px. assert (pux : 0 <= u * Rabs x) by (apply Rmult_le_pos; lra).
    destruct (add_ok o (fmul t d) Fo Fm) as (Fq & Vq).
    { rewrite Vm. fold a. rewrite E2. replace ((a + rnd x) * (1 + e2)) with (a + rnd x + (a + rnd x) * e2) by ring.
      eapply Rle_lt_trans; [apply Rabs_triang|]. pose proof (Rabs_triang a (rnd x)).
      pose proof (ub (Rabs a + (Rabs x + u * Rabs x + tiny pr ex)) ltac:(lra)). lra. }
    rewrite Vm in Vq. fold a in Vq. split; [exact Fq|]. split.
    - rewrite Vq, E2. replace ((a + rnd x) * (1 + e2) - (a + x)) with (x * e1 + k + (a + rnd x) * e2) by (rewrite E1; ring).
      eapply Rle_trans; [apply Rabs_triang|]. eapply Rle_trans; [apply Rplus_le_compat; [apply Rabs_triang|exact R2]|].
      assert (uu : u * (u * Rabs x) <= / 128 * (u * Rabs x)) by (apply ub; exact pux).
      assert (ut : u * tiny pr ex <= / 128 * tiny pr ex) by (apply ub; lra).
      replace (u * (Rabs a + (Rabs x + u * Rabs x + tiny pr ex))) with (u * Rabs a + u * Rabs x + u * (u * Rabs x) + u * tiny pr ex) by ring.
      assert (0 <= u * Rabs a) by (apply Rmult_le_pos; lra). lra.
    - intros D. rewrite Vq. unfold x. rewrite D, Rmult_0_r, rnd_0, Rplus_0_r. apply rnd_id, B2R_fmt.
  Qed.

  (** ** one axis *)
  Context (f g h : bf -> bf) (fpi : bf).
  Notation S := (IEEE pr ex Hpr Hex f g h fpi).
  Context (L : Linal S) (t : R) (HL : LinalF L t).

  Definition still (o d mn mx l hh : bf) : Prop :=
    B2R d = 0 /\ l = ninf /\ hh = pinf /\ B2R mn - t <= B2R o <= B2R mx + t.
  Definition moving (o d mn mx l hh : bf) : Prop :=
    fin l /\ fin hh /\
    ((0 < B2R d /\ Rabs (B2R o + B2R l * B2R d - B2R mn) <= mg o d mn /\ Rabs (B2R o + B2R hh * B2R d - B2R mx) <= mg o d mx) \/
     (B2R d < 0 /\ Rabs (B2R o + B2R l * B2R d - B2R mx) <= mg o d mx /\ Rabs (B2R o + B2R hh * B2R d - B2R mn) <= mg o d mn)).

  Lemma axis_cases (o d mn mx : bf) : axis_ok t o d mn mx -> B2R mn <= B2R mx ->
    match slabF f g h fpi L o d mn mx with
    | None => B2R d = 0 /\ (B2R o < B2R mn \/ B2R mx < B2R o)
    | Some (l, hh) => still o d mn mx l hh \/ moving o d mn mx l hh
    end.
  Proof.
    intros (Fo & Fd & Fm & Fx & Hd) Hle. unfold slabF. pose proof (lf_slack L t HL) as T0. destruct Hd as [Z|(Ht & Rm & Rx)].
    - rewrite (lf_zero_0 L t HL d Fd Z). destruct (isLess L (leps L) o mn) eqn:E1.
      { cbn. split; [exact Z|left]. exact (lf_less_1 L t HL o mn Fo Fm E1). }
      destruct (isGreater L (leps L) o mx) eqn:E2.
      { cbn. split; [exact Z|right]. exact (lf_greater_1 L t HL o mx Fo Fx E2). }
      cbn. left. split; [exact Z|]. split; [reflexivity|]. split; [reflexivity|]. split.
      + apply Rnot_lt_le. intros H. refine (Bool.eq_true_false_abs _ (lf_less_0 L t HL o mn Fo Fm _) E1). lra.
      + apply Rnot_lt_le. intros H. refine (Bool.eq_true_false_abs _ (lf_greater_0 L t HL o mx Fo Fx _) E2). lra.
    - assert (isZero L (leps L) d = false) as ->.
      { destruct (isZero L (leps L) d) eqn:E; [|reflexivity]. exfalso. pose proof (lf_zero_1 L t HL d Fd E). lra. }
      right. destruct (plane_err o d mn Fo Fd Fm Rm) as (F1 & _ & E1). destruct (plane_err o d mx Fo Fd Fx Rx) as (F2 & _ & E2).
      destruct (plane_mono o d mn mx Fo Fd Fm Fx Rm Rx Hle) as (M1 & M2).
      destruct (fminmax_fin _ _ F1 F2) as (Fl & Fh & Vl & Vh).
      split; [exact Fl|]. split; [exact Fh|]. rewrite Vl, Vh.
      assert (Dn : B2R d <> 0) by (intros E; rewrite E, Rabs_R0 in Ht; lra).
      assert (K : forall c q, Rabs (q - (c - B2R o) / B2R d) <= slab_margin pr ex (B2R o) (B2R d) c / Rabs (B2R d) ->
        Rabs (B2R o + q * B2R d - c) <= slab_margin pr ex (B2R o) (B2R d) c).
      { intros c q H. replace (B2R o + q * B2R d - c) with ((q - (c - B2R o) / B2R d) * B2R d) by (field; exact Dn).
        rewrite Rabs_mult. assert (D0 : 0 < Rabs (B2R d)) by (apply Rabs_pos_lt; exact Dn).
        apply (Rmult_le_compat_r (Rabs (B2R d))) in H; [|lra]. unfold Rdiv in H at 2. rewrite Rmult_assoc, Rinv_l, Rmult_1_r in H by lra. exact H. }
      apply K in E1. apply K in E2. destruct (Rlt_le_dec 0 (B2R d)) as [D|D].
      + left. specialize (M1 D). rewrite Rmin_left, Rmax_right by exact M1. split; [exact D|]. split; assumption.
      + right. assert (D' : B2R d < 0) by lra. specialize (M2 D'). rewrite Rmin_right, Rmax_left by exact M2. split; [exact D'|]. split; assumption.
  Qed.

  Section Axis.
    Context (o d mn mx l hh : bf) (C : still o d mn mx l hh \/ moving o d mn mx l hh).
    Lemma axis_lims : lolim l /\ hilim hh /\ (B2R d <> 0 -> fin l /\ fin hh) /\ (fin l \/ fin hh -> B2R d <> 0).
    Proof.
      unfold lolim, hilim. destruct C as [(Z & -> & -> & _)|(Fl & Fh & K)].
      - split; [left; reflexivity|]. split; [left; reflexivity|]. split; [intros N; contradiction|intros [N|N]; discriminate].
      - split; [right; exact Fl|]. split; [right; exact Fh|]. split; [auto|]. intros _. destruct K as [K|K]; lra.
    Qed.
    (** between the limits the ray is near the slab *)
    Lemma axis_about r : le_lo l r -> ge_hi hh r ->
      (B2R d = 0 -> B2R mn - t <= B2R o <= B2R mx + t) /\
      (B2R d <> 0 -> B2R mn - mg o d mn <= B2R o + r * B2R d <= B2R mx + mg o d mx).
    Proof.
      intros H1 H2. destruct C as [(Z & _ & _ & K)|(Fl & Fh & K)]; [split; [intros _; exact K|intros N; contradiction]|].
      destruct H1 as [->|(_ & H1)]; [discriminate|]. destruct H2 as [->|(_ & H2)]; [discriminate|].
      split; [intros Z; destruct K as [K|K]; lra|]. intros _.
      destruct K as [(D & K1 & K2)|(D & K1 & K2)]; apply Rabs_le_inv in K1, K2.
      - pose proof (Rmult_le_compat_r _ _ _ (Rlt_le _ _ D) H1). pose proof (Rmult_le_compat_r _ _ _ (Rlt_le _ _ D) H2). lra.
      - assert (D' : 0 <= - B2R d) by lra. pose proof (Rmult_le_compat_r _ _ _ D' H1). pose proof (Rmult_le_compat_r _ _ _ D' H2). lra.
    Qed.
    (** parameters well inside the slab are between the limits *)
    Lemma axis_deep r :
      (B2R d <> 0 -> B2R mn + mg o d mn <= B2R o + r * B2R d <= B2R mx - mg o d mx) -> le_lo l r /\ ge_hi hh r.
    Proof.
      intros H. destruct C as [(Z & -> & -> & K)|(Fl & Fh & K)]; [split; left; reflexivity|].
      unfold le_lo, ge_hi. enough (B2R l <= r <= B2R hh) by (split; right; (split; [assumption|lra])).
      destruct K as [(D & K1 & K2)|(D & K1 & K2)]; specialize (H ltac:(lra)); apply Rabs_le_inv in K1, K2.
      - split; apply (Rmult_le_reg_r (B2R d)); lra.
      - split; apply (Rmult_le_reg_r (- B2R d)); lra.
    Qed.
    (** parameters in the slab are nearly between the limits *)
    Lemma axis_in r s : B2R mn <= B2R o + r * B2R d <= B2R mx ->
      (B2R d <> 0 -> mg o d mn <= s * Rabs (B2R d) /\ mg o d mx <= s * Rabs (B2R d)) ->
      le_lo l (r + s) /\ ge_hi hh (r - s).
    Proof.
      intros H S12. destruct C as [(Z & -> & -> & K)|(Fl & Fh & K)]; [split; left; reflexivity|].
      destruct (S12 ltac:(destruct K as [K|K]; lra)) as (S1 & S2).
      unfold le_lo, ge_hi. enough (B2R l <= r + s /\ r - s <= B2R hh) as (A & B) by (split; right; (split; assumption)).
      destruct K as [(D & K1 & K2)|(D & K1 & K2)]; apply Rabs_le_inv in K1, K2.
      - rewrite Rabs_pos_eq in S1, S2 by lra. split; apply (Rmult_le_reg_r (B2R d)); lra.
      - rewrite Rabs_left in S1, S2 by lra. split; apply (Rmult_le_reg_r (- B2R d)); lra.
    Qed.
    Lemma axis_entry : fin l -> Rabs (B2R o + B2R l * B2R d - entry_side (B2R d) (B2R mn) (B2R mx)) <= Rmax (mg o d mn) (mg o d mx).
    Proof.
      intros F. destruct C as [(_ & -> & _)|(_ & _ & K)]; [discriminate|]. unfold entry_side.
      destruct (Rlt_dec 0 (B2R d)); destruct K as [K|K]; try lra; (eapply Rle_trans; [apply K|]); [apply Rmax_l|apply Rmax_r].
    Qed.
    Lemma axis_exit : fin hh -> Rabs (B2R o + B2R hh * B2R d - exit_side (B2R d) (B2R mn) (B2R mx)) <= Rmax (mg o d mn) (mg o d mx).
    Proof.
      intros F. destruct C as [(_ & _ & -> & _)|(_ & _ & K)]; [discriminate|]. unfold exit_side.
      destruct (Rlt_dec 0 (B2R d)); destruct K as [K|K]; try lra; (eapply Rle_trans; [apply K|]); [apply Rmax_r|apply Rmax_l].
    Qed.
  End Axis.

  (** ** the point at a parameter near the slab *)
  Lemma axis_point (o d mn mx r : bf) : axis_ok t o d mn mx -> Rabs (B2R o) <= bpow radix2 (ex - 2) -> fin r ->
    (B2R d <> 0 -> B2R mn - mg o d mn <= B2R o + B2R r * B2R d <= B2R mx + mg o d mx) ->
    let q := fadd o (fmul r d) in let E := hit_err pr ex (B2R o) (B2R d) (B2R mn) (B2R mx) in
    fin q /\ (B2R d = 0 -> B2R q = B2R o) /\ Rabs (B2R q - (B2R o + B2R r * B2R d)) + Rmax (mg o d mn) (mg o d mx) <= E.
  Proof.
    intros (Fo & Fd & Fm & Fx & Hd) Ho Fr H q E. pose proof u_small as (u0 & u1). pose proof tiny_pos as t0. pose proof gamma_small as (g0 & g1).
    set (D := Rmax (Rabs (B2R mn - B2R o)) (Rabs (B2R mx - B2R o))).
    assert (D1 : Rabs (B2R mn - B2R o) <= D) by apply Rmax_l. assert (D2 : Rabs (B2R mx - B2R o) <= D) by apply Rmax_r.
    assert (D0 : 0 <= D) by (pose proof (Rabs_pos (B2R mn - B2R o)); lra).
    pose proof (Rabs_pos (B2R d)) as d0. pose proof (Rabs_pos (B2R o)) as o0.
    assert (M : Rmax (mg o d mn) (mg o d mx) <= 4 * u * D + tiny pr ex * Rabs (B2R d)).
    { unfold mg, slab_margin. apply Rmax_lub; apply Rplus_le_compat_r; apply Rmult_le_compat; try apply Rabs_pos; lra. }
    pose proof (Rmax_l (mg o d mn) (mg o d mx)) as M1. pose proof (Rmax_r (mg o d mn) (mg o d mx)) as M2.
    set (m := Rmax (mg o d mn) (mg o d mx)) in *.
    assert (uD : u * D <= / 128 * D) by (apply Rmult_le_compat_r; lra).
    assert (T : Rabs (B2R r * B2R d) <= D + 4 * u * D + tiny pr ex * Rabs (B2R d)).
    { destruct (Req_dec (B2R d) 0) as [Z|N].
      - rewrite Z, Rmult_0_r, Rabs_R0, Rmult_0_r. pose proof (Rmult_le_pos u D (Rlt_le _ _ u0) D0). lra.
      - specialize (H N). apply Rabs_le_inv in D1, D2. apply Rabs_le. lra. }
    assert (Tb : Rabs (B2R r * B2R d) <= bpow radix2 (ex - 3)).
    { destruct Hd as [Z|(_ & ((_ & Dm) & C1 & _) & _ & C2 & _)].
      - rewrite Z, Rmult_0_r, Rabs_R0. apply bpow_ge_0.
      - destruct (Req_dec (B2R d) 0) as [Z|N]; [rewrite Z, Rmult_0_r, Rabs_R0; apply bpow_ge_0|].
        eapply Rle_trans; [exact T|]. assert (DD : D <= bpow radix2 (ex - 4)) by (apply Rmax_lub; assumption).
        assert (Q : bpow radix2 (ex - 3) = 2 * bpow radix2 (ex - 4)).
        { change 2 with (bpow radix2 1). rewrite <- bpow_plus. f_equal. lia. }
        assert (dd : tiny pr ex * Rabs (B2R d) <= / 128).
        { apply Rle_trans with (tiny pr ex * bpow radix2 (ex - 3)); [apply Rmult_le_compat_l; [lra|]|].
          - exact Dm.
          - unfold tiny. rewrite <- bpow_plus. change (/ 128) with (bpow radix2 (-7)). apply bpow_le. lia. }
        assert (one : 1 <= bpow radix2 (ex - 4)).
        { change 1 with (bpow radix2 0). apply bpow_le. pose proof (prec_lt_emax pr ex). lia. }
        lra. }
    destruct (coordinate o d r Fo Fd Fr Ho Tb) as (Fq & Q & Qz).
    split; [exact Fq|]. split; [exact Qz|]. fold q in Q. unfold E, hit_err. fold D.
    assert (ut : u * (tiny pr ex * Rabs (B2R d)) <= / 128 * (tiny pr ex * Rabs (B2R d))) by (apply Rmult_le_compat_r; [apply Rmult_le_pos; lra|lra]).
    assert (uT : 3 * u * Rabs (B2R r * B2R d) <= 3 * u * (D + 4 * u * D + tiny pr ex * Rabs (B2R d))) by (apply Rmult_le_compat_l; lra).
    assert (uu : u * (u * D) <= / 128 * (u * D)) by (apply Rmult_le_compat_r; [apply Rmult_le_pos; lra|lra]).
    assert (0 <= u * D) by (apply Rmult_le_pos; lra). assert (0 <= u * Rabs (B2R o)) by (apply Rmult_le_pos; lra).
    assert (0 <= tiny pr ex * Rabs (B2R d)) by (apply Rmult_le_pos; lra).
    lra.
  Qed.

  (** ** three axes *)
  Section Three.
    Context (O D MN MX : nat -> bf) (A : forall i, (i < 3)%nat -> axis_ok t (O i) (D i) (MN i) (MX i)).
    Context (Hle : forall i, (i < 3)%nat -> B2R (MN i) <= B2R (MX i)) (Hd : exists i, (i < 3)%nat /\ B2R (D i) <> 0).
    Notation slab i := (slabF f g h fpi L (O i) (D i) (MN i) (MX i)).
    Notation o := (fun i => B2R (O i)).
    Notation d := (fun i => B2R (D i)).
    Notation mn := (fun i => B2R (MN i)).
    Notation mx := (fun i => B2R (MX i)).

    Lemma fmax_pick (x y : bf) : fmax x y = x \/ fmax x y = y.
    Proof. unfold fmax. destruct (Bltb x y); auto. Qed.
    Lemma fmin_pick (x y : bf) : fmin x y = x \/ fmin x y = y.
    Proof. unfold fmin. destruct (Bltb y x); auto. Qed.
    Lemma le_lo_fin (x : bf) r : fin x -> (le_lo x r <-> B2R x <= r).
    Proof. intros F. unfold le_lo. split; [intros [->|(_ & K)]; [discriminate|exact K]|auto]. Qed.
    Lemma ge_hi_fin (x : bf) r : fin x -> (ge_hi x r <-> r <= B2R x).
    Proof. intros F. unfold ge_hi. split; [intros [->|(_ & K)]; [discriminate|exact K]|auto]. Qed.
    Lemma lt3' (P : nat -> Prop) : (forall i, (i < 3)%nat -> P i) <-> P 0%nat /\ P 1%nat /\ P 2%nat.
    Proof. split; [intros H; repeat split; apply H; lia|]. intros (X & Y & Z) [|[|[|i]]] Hi; try assumption. lia. Qed.

    Lemma interval_cases :
      (intervalF (slab 0%nat) (slab 1%nat) (slab 2%nat) = (@Bmax_float pr ex Hpr Hex, Bopp (@Bmax_float pr ex Hpr Hex)) /\
       exists i, (i < 3)%nat /\ d i = 0 /\ (o i < mn i \/ mx i < o i)) \/
      exists (l hh : nat -> bf) lo hi, intervalF (slab 0%nat) (slab 1%nat) (slab 2%nat) = (lo, hi) /\ fin lo /\ fin hi /\
        (forall i, (i < 3)%nat -> still (O i) (D i) (MN i) (MX i) (l i) (hh i) \/ moving (O i) (D i) (MN i) (MX i) (l i) (hh i)) /\
        (forall r, B2R lo <= r <-> forall i, (i < 3)%nat -> le_lo (l i) r) /\
        (forall r, r <= B2R hi <-> forall i, (i < 3)%nat -> ge_hi (hh i) r) /\
        (exists k, (k < 3)%nat /\ lo = l k) /\ (exists k, (k < 3)%nat /\ hi = hh k).
    Proof.
      pose proof (axis_cases _ _ _ _ (A 0%nat ltac:(lia)) (Hle 0%nat ltac:(lia))) as C0.
      pose proof (axis_cases _ _ _ _ (A 1%nat ltac:(lia)) (Hle 1%nat ltac:(lia))) as C1.
      pose proof (axis_cases _ _ _ _ (A 2%nat ltac:(lia)) (Hle 2%nat ltac:(lia))) as C2.
      destruct (slab 0%nat) as [[l0 h0]|]; [|left; split; [reflexivity|exists 0%nat; split; [lia|exact C0]]].
      destruct (slab 1%nat) as [[l1 h1]|]; [|left; split; [reflexivity|exists 1%nat; split; [lia|exact C1]]].
      destruct (slab 2%nat) as [[l2 h2]|]; [|left; split; [reflexivity|exists 2%nat; split; [lia|exact C2]]].
      right. cbn [intervalF].
      destruct (axis_lims _ _ _ _ _ _ C0) as (LL0 & HH0 & F0 & _).
      destruct (axis_lims _ _ _ _ _ _ C1) as (LL1 & HH1 & F1 & _).
      destruct (axis_lims _ _ _ _ _ _ C2) as (LL2 & HH2 & F2 & _).
      destruct (fmax_lo l1 l2 LL1 LL2) as (X1 & X2 & X3). destruct (fmax_lo l0 (fmax l1 l2) LL0 X1) as (_ & Y2 & Y3).
      destruct (fmin_hi h1 h2 HH1 HH2) as (U1 & U2 & U3). destruct (fmin_hi h0 (fmin h1 h2) HH0 U1) as (_ & V2 & V3).
      assert (Ffin : fin (fmax l0 (fmax l1 l2)) /\ fin (fmin h0 (fmin h1 h2))).
      { destruct Hd as ([|[|[|i]]] & Hi & N); [| | |lia].
        - destruct (F0 N) as (Q1 & Q2). exact (conj (Y2 (or_introl Q1)) (V2 (or_introl Q2))).
        - destruct (F1 N) as (Q1 & Q2). exact (conj (Y2 (or_intror (X2 (or_introl Q1)))) (V2 (or_intror (U2 (or_introl Q2))))).
        - destruct (F2 N) as (Q1 & Q2). exact (conj (Y2 (or_intror (X2 (or_intror Q1)))) (V2 (or_intror (U2 (or_intror Q2))))). }
      destruct Ffin as (Fl & Fh).
      exists (fun i => match i with 0%nat => l0 | 1%nat => l1 | _ => l2 end), (fun i => match i with 0%nat => h0 | 1%nat => h1 | _ => h2 end).
      exists (fmax l0 (fmax l1 l2)), (fmin h0 (fmin h1 h2)). split; [reflexivity|]. split; [exact Fl|]. split; [exact Fh|].
      split; [apply lt3'; auto|].
      split; [intros r; rewrite <- le_lo_fin by exact Fl; rewrite Y3, X3; symmetry; exact (lt3' (fun i => le_lo (match i with 0%nat => l0 | 1%nat => l1 | _ => l2 end) r))|].
      split; [intros r; rewrite <- ge_hi_fin by exact Fh; rewrite V3, U3; symmetry; exact (lt3' (fun i => ge_hi (match i with 0%nat => h0 | 1%nat => h1 | _ => h2 end) r))|].
      split.
      - destruct (fmax_pick l0 (fmax l1 l2)) as [->|E]; [exists 0%nat; split; [lia|reflexivity]|rewrite E].
        destruct (fmax_pick l1 l2) as [->| ->]; [exists 1%nat|exists 2%nat]; (split; [lia|reflexivity]).
      - destruct (fmin_pick h0 (fmin h1 h2)) as [->|E]; [exists 0%nat; split; [lia|reflexivity]|rewrite E].
        destruct (fmin_pick h1 h2) as [->| ->]; [exists 1%nat|exists 2%nat]; (split; [lia|reflexivity]).
    Qed.

    Lemma interval_facts : exists lo hi, intervalF (slab 0%nat) (slab 1%nat) (slab 2%nat) = (lo, hi) /\ fin lo /\ fin hi /\
      (forall x, deep_in_box pr ex o d mn mx x -> B2R lo <= x <= B2R hi) /\
      (B2R lo < B2R hi ->
        (forall r, B2R lo <= r <= B2R hi -> about_box pr ex t o d mn mx r) /\
        (exists k, (k < 3)%nat /\ d k <> 0 /\ Rabs (o k + B2R lo * d k - entry_side (d k) (mn k) (mx k)) <= Rmax (mg (O k) (D k) (MN k)) (mg (O k) (D k) (MX k))) /\
        (exists k, (k < 3)%nat /\ d k <> 0 /\ Rabs (o k + B2R hi * d k - exit_side (d k) (mn k) (mx k)) <= Rmax (mg (O k) (D k) (MN k)) (mg (O k) (D k) (MX k))) /\
        (forall x s, at_box o d mn mx x ->
           (forall i, (i < 3)%nat -> d i <> 0 -> mg (O i) (D i) (MN i) <= s * Rabs (d i) /\ mg (O i) (D i) (MX i) <= s * Rabs (d i)) ->
           B2R lo <= x + s /\ x - s <= B2R hi)).
    Proof.
      destruct interval_cases as [(E & i & Hi & Z & N)|(l & hh & lo & hi & E & Fl & Fh & C & Lo & Hi & (k & Hk & El) & (k' & Hk' & Eh))].
      - destruct (@max_spec pr ex Hpr Hex) as (Fm & Vm). eexists. eexists. split; [exact E|]. split; [exact Fm|]. split; [rewrite is_finite_Bopp; exact Fm|]. split.
        + intros x K. destruct (K i Hi) as (K1 & _). specialize (K1 Z). lra.
        + rewrite B2R_Bopp, Vm. assert (bpow radix2 (ex - pr) <= bpow radix2 ex) by (apply bpow_le; lia). lra.
      - exists lo, hi. split; [exact E|]. split; [exact Fl|]. split; [exact Fh|]. split.
        + intros x K. split; [apply Lo|apply Hi]; intros i Hi'; apply (axis_deep _ _ _ _ _ _ (C i Hi')); intros N; exact (proj2 (K i Hi') N).
        + intros _. split; [|split; [|split]].
          * intros r [R1 R2] i Hi'. apply (axis_about _ _ _ _ _ _ (C i Hi')); [apply Lo; assumption|apply Hi; assumption].
          * exists k. split; [exact Hk|]. rewrite El in Fl |- *. split; [apply (axis_lims _ _ _ _ _ _ (C k Hk)); auto|]. apply (axis_entry _ _ _ _ _ _ (C k Hk) Fl).
          * exists k'. split; [exact Hk'|]. rewrite Eh in Fh |- *. split; [apply (axis_lims _ _ _ _ _ _ (C k' Hk')); auto|]. apply (axis_exit _ _ _ _ _ _ (C k' Hk') Fh).
          * intros x s K S'. split; [apply Lo|apply Hi]; intros i Hi'; apply (axis_in _ _ _ _ _ _ (C i Hi') x s (K i Hi') (S' i Hi')).
    Qed.

    (** the reported point *)
    Definition hit_at (q : nat -> bf) (r : R) : Prop :=
      forall i, (i < 3)%nat ->
        fin (q i) /\ (d i = 0 -> B2R (q i) = o i) /\
        Rabs (B2R (q i) - (o i + r * d i)) + Rmax (mg (O i) (D i) (MN i)) (mg (O i) (D i) (MX i)) <= hit_err pr ex (o i) (d i) (mn i) (mx i).
    Lemma hit_ok (r : bf) : fin r -> (forall i, (i < 3)%nat -> Rabs (o i) <= bpow radix2 (ex - 2)) -> about_box pr ex t o d mn mx (B2R r) ->
      hit_at (fun i => fadd (O i) (fmul r (D i))) (B2R r).
    Proof. intros Fr Ho K i Hi. apply axis_point; [apply A; exact Hi|apply Ho; exact Hi|exact Fr|]. intros N. exact (proj2 (K i Hi) N). Qed.
  End Three.
End Hits.
