(** * Boxes in floating point *)

From Coq Require Import List Arith Bool Lia ZArith Reals Lra Psatz.
From Flocq Require Import Core Plus_error Mult_error BinarySingleNaN.
From Verif Require Import Scalar Linal Result ModelBox SpecBox SpecIEEE VecLemmas ProofRound ProofIEEE.
Import ListNotations.
Local Open Scope R_scope.

Lemma make_aabb_inv {S : Scalar} (L : Linal S) dbg (pts : list (vec S 3)) (r : aabb S 3) :
  make_aabb L dbg pts = Ok r ->
  let m i := fold_left (@extreme_step S 3 (axis_vec 3 i)) pts (smax, slowest) in
  r = mkAABB (mk3 (fst (m 0%nat)) (fst (m 1%nat)) (fst (m 2%nat))) (mk3 (snd (m 0%nat)) (snd (m 1%nat)) (snd (m 2%nat))).
Proof.
  cbn zeta. unfold make_aabb, extreme_points, aabb_make. destruct dbg; cbn [geo_assert bind].
  - destruct (match pts with [] => false | _ => true end); cbn [bind]; [|discriminate].
    repeat (match goal with |- context [if ?b then Ok tt else Trap] => destruct b; cbn [bind]; [|discriminate] end).
    intros H. apply Ok_inj in H. symmetry. exact H.
  - intros H. apply Ok_inj in H. symmetry. exact H.
Qed.

Lemma intersecting_gen {S : Scalar} (L : Linal S) n (a b : aabb S n) :
  aabb_is_intersecting L a b = true <->
  forall i, (i < n)%nat -> isLessEq L (leps L) (vnth s0 i (a_max a)) (vnth s0 i (a_min b)) = false /\
                           isGreaterEq L (leps L) (vnth s0 i (a_min a)) (vnth s0 i (a_max b)) = false.
Proof.
  assert (B : forall (c : aabb S n) i, (i < n)%nat -> vnth (s0, s0) i (bounds c) = (vnth s0 i (a_min c), vnth s0 i (a_max c))).
  { intros c i Hi. unfold bounds. rewrite (vnth_vmap2 s0 s0 (s0, s0)) by exact Hi. reflexivity. }
  unfold aabb_is_intersecting. rewrite negb_true_iff. rewrite (vex2_false (s0, s0) (s0, s0)). split; intros H i Hi; specialize (H i Hi).
  - rewrite !B in H by exact Hi. apply orb_false_elim in H. exact H.
  - rewrite !B by exact Hi. apply orb_false_intro; apply H.
Qed.

Lemma intersect_inv {S : Scalar} (L : Linal S) fill dbg n (a b r : aabb S n) :
  aabb_is_intersecting L a b = true -> aabb_intersect L fill dbg a b = Ok r ->
  r = mkAABB (vmap2 std_max (a_min a) (a_min b)) (vmap2 std_min (a_max a) (a_max b)).
Proof.
  unfold aabb_is_intersecting, aabb_intersect, aabb_make. intros H. apply negb_true_iff in H. rewrite H.
  unfold geo_assert. destruct dbg; [destruct (aabb_is_valid _ _)|]; cbn [bind]; intros E; try discriminate; apply Ok_inj in E; symmetry; exact E.
Qed.

(** a box grows by points and boxes *)
Definition growF_step {S : Scalar} (L : Linal S) {n} (b : aabb S n) (q : vec S n + aabb S n) : aabb S n :=
  match q with inl v => aabb_add_point L b v | inr o => aabb_add_box L b o end.
Definition loF {S : Scalar} {n} (q : vec S n + aabb S n) : vec S n := match q with inl v => v | inr o => a_min o end.
Definition hiF {S : Scalar} {n} (q : vec S n + aabb S n) : vec S n := match q with inl v => v | inr o => a_max o end.

Section BoxF.
  Context {pr ex : Z} {Hpr : Prec_gt_0 pr} {Hex : Prec_lt_emax pr ex}.
  Notation bf := (binary_float pr ex).
  Notation rnd := (rndf pr ex).
  Notation fmt := (fmtf pr ex).
  Notation fexp := (fexpf pr ex).
  Notation fsub := (@Bminus pr ex Hpr Hex mode_NE).
  Notation fadd := (@Bplus pr ex Hpr Hex mode_NE).
  Notation fmul := (@Bmult pr ex Hpr Hex mode_NE).
  Notation fdiv := (@Bdiv pr ex Hpr Hex mode_NE).
  Notation zero := (B754_zero false : bf).
  Context (f g h : bf -> bf) (fpi : bf).
  Let S := IEEE pr ex Hpr Hex f g h fpi.
  #[local] Instance vf : Valid_exp fexp := FLT_exp_valid (3 - ex - pr) pr.

  (** ** instances of the contract *)
  Lemma raw_linal_F e : LinalF (raw_linal S e) 0.
  Proof.
    split; cbn; [lra| | | | | | | | | |]; [intros a Fa H|intros a Fa H|intros a b Fa Fb H..].
    - rewrite Beqb_correct in H by (assumption || reflexivity). destruct (Req_bool_spec (B2R a) (B2R (@B754_zero pr ex false))) as [E|]; [|discriminate].
      rewrite E. cbn. rewrite Rabs_R0. lra.
    - rewrite Beqb_correct by (assumption || reflexivity). apply Req_bool_true. exact H.
    - rewrite Bltb_correct in H by assumption. destruct (Rlt_bool_spec (B2R a) (B2R b)); [assumption|discriminate].
    - rewrite Bltb_correct by assumption. apply Rlt_bool_true. lra.
    - rewrite Bltb_correct in H by assumption. destruct (Rlt_bool_spec (B2R b) (B2R a)); [assumption|discriminate].
    - rewrite Bltb_correct by assumption. apply Rlt_bool_true. lra.
    - rewrite Bleb_correct in H by assumption. destruct (Rle_bool_spec (B2R a) (B2R b)); [lra|discriminate].
    - rewrite Bleb_correct by assumption. apply Rle_bool_true. lra.
    - rewrite Bleb_correct in H by assumption. destruct (Rle_bool_spec (B2R b) (B2R a)); [lra|discriminate].
    - rewrite Bleb_correct by assumption. apply Rle_bool_true. lra.
  Qed.

  (** comparison of the rounded difference with a tolerance: the slack is the next larger number *)
  Lemma tol_linal_F (e : bf) : is_finite e = true -> 0 <= B2R e -> LinalF (tol_linal S e) (succ radix2 fexp (B2R e)).
  Proof.
    intros Fe Pe.
    assert (Hs : B2R e < succ radix2 fexp (B2R e) \/ B2R e = 0).
    { destruct (Req_dec (B2R e) 0) as [Z|Z]; [right; exact Z|left; apply succ_gt_id, Z]. }
    assert (Hlt : B2R e < succ radix2 fexp (B2R e)).
    { destruct Hs as [Hs|Z]; [exact Hs|]. rewrite Z, succ_0. unfold fexpf. rewrite ulp_FLT_0 by exact Hpr. apply bpow_gt_0. }
    assert (Fs : fmt (succ radix2 fexp (B2R e))) by (apply generic_format_succ; [exact vf|apply B2R_fmt]).
    assert (T : forall a b : bf, is_finite a = true -> is_finite b = true -> Bltb e (fsub a b) = true -> B2R b < B2R a).
    { intros a b Fa Fb H. rewrite sub_ltb in H by assumption. destruct (Rlt_bool_spec (B2R e) (rnd (B2R a - B2R b))) as [K|]; [|discriminate].
      destruct (Rle_lt_dec (B2R a - B2R b) 0) as [N|N]; [exfalso|lra]. apply (@rnd_le pr ex _) in N. rewrite rnd_0 in N. lra. }
    assert (T' : forall a b : bf, is_finite a = true -> is_finite b = true -> B2R b + succ radix2 fexp (B2R e) < B2R a -> Bltb e (fsub a b) = true).
    { intros a b Fa Fb H. rewrite sub_ltb by assumption. apply Rlt_bool_true. eapply Rlt_le_trans; [exact Hlt|].
      rewrite <- (@rnd_id pr ex (succ radix2 fexp (B2R e))) by exact Fs. apply rnd_le. lra. }
    split; cbn; [lra| | | | | | | | | |]; [intros a Fa H|intros a Fa H|intros a b Fa Fb H..]; auto.
    - rewrite Bleb_correct in H by (try rewrite is_finite_Babs; assumption). rewrite B2R_Babs in H.
      destruct (Rle_bool_spec (Rabs (B2R a)) (B2R e)); [lra|discriminate].
    - rewrite Bleb_correct by (try rewrite is_finite_Babs; assumption). rewrite B2R_Babs, H, Rabs_R0. apply Rle_bool_true. exact Pe.
    - destruct (Rle_lt_dec (B2R a) (B2R b + succ radix2 fexp (B2R e))) as [K|K]; [exact K|]. rewrite (T' a b Fa Fb K) in H. discriminate.
    - destruct (Bltb e (fsub a b)) eqn:E; [|reflexivity]. apply T in E; try assumption. exfalso. lra.
    - destruct (Rle_lt_dec (B2R b - succ radix2 fexp (B2R e)) (B2R a)) as [K|K]; [exact K|].
      assert (K' : B2R a + succ radix2 fexp (B2R e) < B2R b) by lra. rewrite (T' b a Fb Fa K') in H. discriminate.
    - destruct (Bltb e (fsub b a)) eqn:E; [|reflexivity]. apply T in E; try assumption. exfalso. lra.
  Qed.

  (** ** dot product with a unit axis *)
  Lemma mul_zero (x : bf) : is_finite x = true -> is_finite (fmul x zero) = true /\ B2R (fmul x zero) = 0.
  Proof. intros H. destruct x; try discriminate; split; reflexivity. Qed.
  Lemma add_zero_l (x y : bf) : is_finite x = true -> is_finite y = true -> B2R x = 0 -> is_finite (fadd x y) = true /\ B2R (fadd x y) = B2R y.
  Proof.
    intros Fx Fy Z. assert (E : rnd (B2R x + B2R y) = B2R y) by (rewrite Z, Rplus_0_l; apply rnd_id, B2R_fmt).
    rewrite <- E. apply add_ok; try assumption. rewrite E. apply fin_lt.
  Qed.
  Lemma add_zero_r (x y : bf) : is_finite x = true -> is_finite y = true -> B2R y = 0 -> is_finite (fadd x y) = true /\ B2R (fadd x y) = B2R x.
  Proof.
    intros Fx Fy Z. assert (E : rnd (B2R x + B2R y) = B2R x) by (rewrite Z, Rplus_0_r; apply rnd_id, B2R_fmt).
    rewrite <- E. apply add_ok; try assumption. rewrite E. apply fin_lt.
  Qed.
  Lemma mul_one (x : bf) : is_finite x = true -> is_finite (fmul x (@s1 S)) = true /\ B2R (fmul x (@s1 S)) = B2R x.
  Proof.
    intros Fx. destruct (@one_spec pr ex Hpr Hex) as (F1 & E1).
    assert (E : rnd (B2R x * B2R (@s1 S)) = B2R x) by (change (B2R (@s1 S)) with (B2R (ieee_pow pr ex Hpr Hex 1 0)); rewrite E1, Rmult_1_r; apply rnd_id, B2R_fmt).
    rewrite <- E. apply mul_ok; try assumption. rewrite E. apply fin_lt.
  Qed.
  Lemma finite_tl n (v : vec bf (Datatypes.S n)) : finite_pt v -> finite_pt (snd v).
  Proof. intros H i Hi. apply (H (Datatypes.S i)). lia. Qed.
  Lemma finite_hd n (v : vec bf (Datatypes.S n)) : finite_pt v -> is_finite (fst v) = true.
  Proof. intros H. apply (H 0%nat). lia. Qed.

  Lemma dot_zero n : forall v : vec bf n, finite_pt v -> is_finite (@dot S n v (vconst n (@s0 S))) = true /\ B2R (@dot S n v (vconst n (@s0 S))) = 0.
  Proof.
    induction n as [|n IH]; intros v Hv; [split; reflexivity|].
    destruct (IH (snd v) (finite_tl n v Hv)) as (F & E). destruct (mul_zero (fst v) (finite_hd n v Hv)) as (F1 & E1).
    change (@dot S (Datatypes.S n) v (vconst (Datatypes.S n) (@s0 S))) with (fadd (fmul (fst v) zero) (@dot S n (snd v) (vconst n (@s0 S)))).
    destruct (add_zero_l _ _ F1 F E1) as (F2 & E2). split; [exact F2|]. rewrite E2. exact E.
  Qed.
  Lemma dot_axis n : forall i (v : vec bf n), (i < n)%nat -> finite_pt v ->
    is_finite (@dot S n v (axis_vec n i)) = true /\ B2R (@dot S n v (axis_vec n i)) = fval i v.
  Proof.
    induction n as [|n IH]; intros i v Hi Hv; [lia|]. pose proof (finite_hd n v Hv) as Fh. destruct i as [|i].
    - destruct (mul_one (fst v) Fh) as (F1 & E1). destruct (dot_zero n (snd v) (finite_tl n v Hv)) as (F2 & E2).
      change (@dot S (Datatypes.S n) v (axis_vec (Datatypes.S n) 0)) with (fadd (fmul (fst v) (@s1 S)) (@dot S n (snd v) (vconst n (@s0 S)))).
      destruct (add_zero_r _ _ F1 F2 E2) as (F & E). split; [exact F|]. rewrite E. exact E1.
    - destruct (IH i (snd v) ltac:(lia) (finite_tl n v Hv)) as (F2 & E2). destruct (mul_zero (fst v) Fh) as (F1 & E1).
      change (@dot S (Datatypes.S n) v (axis_vec (Datatypes.S n) (Datatypes.S i))) with (fadd (fmul (fst v) zero) (@dot S n (snd v) (axis_vec n i))).
      destruct (add_zero_l _ _ F1 F2 E1) as (F & E). split; [exact F|]. rewrite E. exact E2.
  Qed.

  (** ** extreme points along an axis *)
  Definition ext_ok (i : nat) {n} (pts : list (vec bf n)) (mm : bf * bf) : Prop :=
    is_finite (fst mm) = true /\ is_finite (snd mm) = true /\
    (forall q, In q pts -> B2R (fst mm) <= fval i q <= B2R (snd mm)) /\
    (pts = [] \/ (exists q, In q pts /\ fval i q = B2R (fst mm)) /\ (exists q, In q pts /\ fval i q = B2R (snd mm))) .

  Lemma step_bounds (mm : bf * bf) (d : bf) : is_finite (fst mm) = true -> is_finite (snd mm) = true -> is_finite d = true ->
    let mn := if Bltb d (fst mm) then d else fst mm in
    let mx := if Bltb (snd mm) d then d else snd mm in
    is_finite mn = true /\ is_finite mx = true /\ B2R mn = Rmin (B2R d) (B2R (fst mm)) /\ B2R mx = Rmax (B2R d) (B2R (snd mm)).
  Proof.
    intros F1 F2 Fd. cbn zeta. rewrite !Bltb_correct by assumption.
    destruct (Rlt_bool_spec (B2R d) (B2R (fst mm))), (Rlt_bool_spec (B2R (snd mm)) (B2R d)); repeat split; try assumption;
      unfold Rmin, Rmax; repeat destruct Rle_dec; lra.
  Qed.

  Lemma ext_step n i (pts : list (vec bf n)) q (mm : bf * bf) (d : bf) :
    ext_ok i pts mm -> (pts = [] -> mm = (@Bmax_float pr ex Hpr Hex, Bopp (@Bmax_float pr ex Hpr Hex))) ->
    is_finite d = true -> B2R d = fval i q ->
    ext_ok i (pts ++ [q]) (if Bltb d (fst mm) then d else fst mm, if Bltb (snd mm) d then d else snd mm).
  Proof.
    intros (F1 & F2 & Hb & Hw) H0 Fd Ed. destruct (step_bounds mm d F1 F2 Fd) as (G1 & G2 & G3 & G4).
    unfold ext_ok. cbn [fst snd]. split; [exact G1|]. split; [exact G2|]. rewrite G3, G4, Ed. split.
    - intros q' Hq. apply in_app_or in Hq as [Hq|[<-|[]]].
      + specialize (Hb q' Hq). pose proof (Rmin_r (fval i q) (B2R (fst mm))). pose proof (Rmax_r (fval i q) (B2R (snd mm))). lra.
      + split; [apply Rmin_l|apply Rmax_l].
    - right. destruct Hw as [Hn|((q1 & H1 & E1) & (q2 & H2 & E2))].
      + rewrite (H0 Hn). cbn [fst snd]. subst pts. pose proof (@max_ge pr ex Hpr Hex (vnth zero i q)) as Hm.
        split; exists q; (split; [left; reflexivity|]).
        * rewrite Rmin_left; [reflexivity|]. exact (proj2 Hm).
        * rewrite Rmax_left; [reflexivity|]. rewrite B2R_Bopp. exact (proj1 Hm).
      + split.
        * unfold Rmin. destruct (Rle_dec (fval i q) (B2R (fst mm))).
          -- exists q. split; [apply in_or_app; right; left; reflexivity|reflexivity].
          -- exists q1. split; [apply in_or_app; left; exact H1|exact E1].
        * unfold Rmax. destruct (Rle_dec (fval i q) (B2R (snd mm))).
          -- exists q2. split; [apply in_or_app; left; exact H2|exact E2].
          -- exists q. split; [apply in_or_app; right; left; reflexivity|reflexivity].
  Qed.

  Lemma extreme_fold n i (pts : list (vec bf n)) : (i < n)%nat -> (forall q, In q pts -> finite_pt q) ->
    ext_ok i pts (fold_left (@extreme_step S n (axis_vec n i)) pts (@smax S, @slowest S)).
  Proof.
    intros Hi Hf. destruct (@max_spec pr ex Hpr Hex) as (Fm & _).
    induction pts as [|q pts IH] using rev_ind.
    - split; [exact Fm|]. split; [exact (eq_trans (is_finite_Bopp _ _ _) Fm)|]. split; [intros q []|left; reflexivity].
    - rewrite fold_left_app. cbn [fold_left].
      assert (Hf' : forall q, In q pts -> finite_pt q) by (intros q' Hq; apply Hf, in_or_app; left; exact Hq).
      assert (Fq : finite_pt q) by (apply Hf, in_or_app; right; left; reflexivity).
      destruct (dot_axis n i q Hi Fq) as (Fd & Ed).
      apply (ext_step n i pts q (fold_left (@extreme_step S n (axis_vec n i)) pts (@smax S, @slowest S)) _ (IH Hf')); [|exact Fd|exact Ed].
      intros ->. reflexivity.
  Qed.

  (** ** make_aabb *)
  Lemma make_aabb_F (L : Linal S) dbg (pts : list (vec bf 3)) (r : aabb S 3) :
    pts <> [] -> (forall q, In q pts -> finite_pt q) -> make_aabb L dbg pts = Ok r ->
    finite_pt (a_min r) /\ finite_pt (a_max r) /\
    forall i, (i < 3)%nat -> is_min (map (fval i) pts) (fval i (a_min r)) /\ is_max (map (fval i) pts) (fval i (a_max r)).
  Proof.
    intros Hne Hf H.
    pose proof (extreme_fold 3 0 pts ltac:(lia) Hf) as X0. pose proof (extreme_fold 3 1 pts ltac:(lia) Hf) as X1. pose proof (extreme_fold 3 2 pts ltac:(lia) Hf) as X2.
    set (m0 := fold_left (@extreme_step S 3 (axis_vec 3 0)) pts (@smax S, @slowest S)) in *.
    set (m1 := fold_left (@extreme_step S 3 (axis_vec 3 1)) pts (@smax S, @slowest S)) in *.
    set (m2 := fold_left (@extreme_step S 3 (axis_vec 3 2)) pts (@smax S, @slowest S)) in *.
    assert (E : r = mkAABB (mk3 (fst m0) (fst m1) (fst m2)) (mk3 (snd m0) (snd m1) (snd m2))).
    { exact (make_aabb_inv L dbg pts r H). }
    subst r. cbn [a_min a_max]. clear H. destruct X0 as (A0 & B0 & C0 & D0), X1 as (A1 & B1 & C1 & D1), X2 as (A2 & B2 & C2 & D2).
    split; [|split].
    - intros [|[|[|i]]] Hi; try lia; assumption.
    - intros [|[|[|i]]] Hi; try lia; assumption.
    - assert (G : forall i (m : bf * bf), ext_ok i pts m -> is_min (map (fval i) pts) (B2R (fst m)) /\ is_max (map (fval i) pts) (B2R (snd m))).
      { intros i m (_ & _ & Hb & [Hn|((q1 & Q1 & E1) & (q2 & Q2 & E2))]); [contradiction|]. split; split.
        - rewrite <- E1. apply in_map, Q1.
        - intros x Hx. apply in_map_iff in Hx as (q & <- & Hq). apply Hb, Hq.
        - rewrite <- E2. apply in_map, Q2.
        - intros x Hx. apply in_map_iff in Hx as (q & <- & Hq). apply Hb, Hq. }
      intros [|[|[|i]]] Hi; try lia; [apply (G 0%nat m0)|apply (G 1%nat m1)|apply (G 2%nat m2)]; repeat split; assumption || (apply C0 || apply C1 || apply C2; assumption).
  Qed.
  Lemma make_aabb_F_ok (L : Linal S) (pts : list (vec bf 3)) : exists r, make_aabb L false pts = Ok r.
  Proof. unfold make_aabb, extreme_points, aabb_make. cbn [geo_assert bind]. eexists. reflexivity. Qed.

  (** ** centre *)
  Lemma two_spec : is_finite (fadd (@s1 S) (@s1 S)) = true /\ B2R (fadd (@s1 S) (@s1 S)) = 2.
  Proof.
    destruct (@one_spec pr ex Hpr Hex) as (F1 & E1). destruct (@emax_pos pr ex Hpr Hex) as (P1 & P2).
    assert (E : rnd (B2R (ieee_pow pr ex Hpr Hex 1 0) + B2R (ieee_pow pr ex Hpr Hex 1 0)) = 2).
    { rewrite E1. replace (1 + 1) with (bpow radix2 1) by (cbn; lra). rewrite rnd_id by (apply fmt_pow; lia). cbn. lra. }
    rewrite <- E. apply add_ok; try assumption. rewrite E. rewrite Rabs_pos_eq by lra. apply (bpow_lt radix2 1 ex). lia.
  Qed.

  Lemma half_diff lo hi : fmt lo -> fmt hi -> lo <= hi -> 0 <= rnd (rnd (hi - lo) / 2) <= hi - lo.
  Proof.
    intros Fl Fh Hle. set (x := hi - lo). assert (Hx : 0 <= x) by (unfold x; lra).
    assert (Hd : 0 <= rnd x) by (apply rnd_nonneg, Hx). split; [apply rnd_nonneg; lra|].
    destruct (@emax_pos pr ex Hpr Hex) as (P1 & P2).
    destruct (Rle_lt_dec x (bpow radix2 (pr + (3 - ex - pr)))) as [Hs|Hl].
    - assert (Fx : fmt x).
      { unfold x, Rminus. apply FLT_format_plus_small; [exact Hpr|exact Fh|apply generic_format_opp, Fl|]. fold (hi - lo). fold x. rewrite Rabs_pos_eq by exact Hx. exact Hs. }
      rewrite (rnd_id x Fx). rewrite <- (@rnd_id pr ex x Fx) at 2. apply rnd_le. lra.
    - assert (Hd' : bpow radix2 (pr + (3 - ex - pr)) <= rnd x).
      { rewrite <- (@rnd_id pr ex (bpow radix2 (pr + (3 - ex - pr)))) by (apply fmt_pow; lia). apply rnd_le. lra. }
      assert (Fd : fmt (rnd x / 2)).
      { replace (rnd x / 2) with (rnd x * bpow radix2 (-1)) by (cbn; lra). apply mult_bpow_exact_FLT; [apply rnd_fmt|].
        assert (pr + (3 - ex - pr) + 1 <= mag radix2 (rnd x))%Z.
        { apply mag_ge_bpow. rewrite Rabs_pos_eq by exact Hd. replace (pr + (3 - ex - pr) + 1 - 1)%Z with (pr + (3 - ex - pr))%Z by lia. exact Hd'. }
        lia. }
      rewrite (rnd_id _ Fd).
      assert (Hx0 : 0 < x) by (pose proof (bpow_gt_0 radix2 (pr + (3 - ex - pr))); lra).
      assert (Hm : bpow radix2 (mag radix2 x - 1) <= x < bpow radix2 (mag radix2 x)).
      { pose proof (bpow_mag_le radix2 x ltac:(lra)). pose proof (bpow_mag_gt radix2 x). rewrite Rabs_pos_eq in * by exact Hx. auto. }
      assert (Hr : rnd x <= bpow radix2 (mag radix2 x)).
      { rewrite <- (@rnd_id pr ex (bpow radix2 (mag radix2 x))); [apply rnd_le; lra|]. apply fmt_pow.
        assert (pr + (3 - ex - pr) + 1 <= mag radix2 x)%Z.
        { apply mag_ge_bpow. rewrite Rabs_pos_eq by exact Hx. replace (pr + (3 - ex - pr) + 1 - 1)%Z with (pr + (3 - ex - pr))%Z by lia. lra. }
        lia. }
      replace (mag radix2 x : Z) with (1 + (mag radix2 x - 1))%Z in Hr by lia. rewrite bpow_plus in Hr. cbn [bpow] in Hr. cbn in Hr. lra.
  Qed.

  Lemma center1 (lo hi : bf) : is_finite lo = true -> is_finite hi = true -> B2R lo <= B2R hi ->
    let c := fadd lo (fdiv (fsub hi lo) (fadd (@s1 S) (@s1 S))) in
    (rnd (B2R hi - B2R lo) < bpow radix2 ex -> is_finite c = true /\ B2R lo <= B2R c <= B2R hi) /\
    (bpow radix2 ex <= rnd (B2R hi - B2R lo) -> c = B754_infinity false).
  Proof.
    intros Fl Fh Hle c. destruct two_spec as (F2 & E2).
    assert (P : 0 <= rnd (B2R hi - B2R lo)) by (apply rnd_nonneg; lra).
    pose proof (half_diff _ _ (B2R_fmt lo) (B2R_fmt hi) Hle) as Hh. split; intros H.
    - destruct (sub_ok hi lo Fh Fl) as (Fd & Ed); [rewrite Rabs_pos_eq by exact P; exact H|].
      assert (Hq : Rabs (rnd (B2R (fsub hi lo) / B2R (fadd (@s1 S) (@s1 S)))) < bpow radix2 ex).
      { rewrite E2, Ed, Rabs_pos_eq by apply Hh. eapply Rle_lt_trans; [|exact H].
        rewrite <- (@rnd_id pr ex (rnd (B2R hi - B2R lo))) at 2 by apply rnd_fmt. apply rnd_le. lra. }
      destruct (div_ok (fsub hi lo) (fadd (@s1 S) (@s1 S)) Fd ltac:(rewrite E2; lra) Hq) as (Fq & Eq). rewrite E2, Ed in Eq.
      assert (B : B2R lo <= rnd (B2R lo + B2R (fdiv (fsub hi lo) (fadd (@s1 S) (@s1 S)))) <= B2R hi).
      { rewrite Eq. split.
        - rewrite <- (@rnd_id pr ex (B2R lo)) at 1 by apply B2R_fmt. apply rnd_le. lra.
        - rewrite <- (@rnd_id pr ex (B2R hi)) at 2 by apply B2R_fmt. apply rnd_le. lra. }
      destruct (add_ok lo (fdiv (fsub hi lo) (fadd (@s1 S) (@s1 S))) Fl Fq) as (Fc & Ec); [exact (between_lt lo hi _ B)|].
      unfold c. split; [exact Fc|]. rewrite Ec. exact B.
    - unfold c. rewrite (sub_ovf hi lo Fh Fl) by (rewrite Rabs_pos_eq by exact P; exact H). rewrite Rlt_bool_false by exact Hle.
      revert F2 E2. generalize (fadd (@s1 S) (@s1 S)). intros t Ft Et. destruct t as [| | |[] ? ? ?]; try discriminate; cbn in Et; try lra.
      + exfalso. assert (F2R (Float radix2 (Z.neg m) e) <= 0) by (apply F2R_le_0; cbn; lia). cbn in H0. lra.
      + destruct lo; try discriminate; reflexivity.
  Qed.

  Lemma center_F n (b : aabb S n) : finite_pt (a_min b) -> finite_pt (a_max b) ->
    forall i, (i < n)%nat -> fval i (a_min b) <= fval i (a_max b) ->
    let c := vnth zero i (@aabb_center S n b) in
    (rnd (fval i (a_max b) - fval i (a_min b)) < bpow radix2 ex -> is_finite c = true /\ fval i (a_min b) <= B2R c <= fval i (a_max b)) /\
    (bpow radix2 ex <= rnd (fval i (a_max b) - fval i (a_min b)) -> c = B754_infinity false).
  Proof.
    intros F1 F2 i Hi Hle c.
    assert (E : c = fadd (vnth zero i (a_min b)) (fdiv (fsub (vnth zero i (a_max b)) (vnth zero i (a_min b))) (fadd (@s1 S) (@s1 S)))).
    { unfold c, aabb_center, vadd, vdivs, vsub. rewrite (vnth_vmap2 zero zero zero) by exact Hi. rewrite (vnth_vmap zero zero) by exact Hi. rewrite (vnth_vmap2 zero zero zero) by exact Hi. reflexivity. }
    rewrite E. apply center1; [apply F1, Hi|apply F2, Hi|exact Hle].
  Qed.

  (** ** growth *)
  Lemma growF_min (L : Linal S) n (b : aabb S n) q i : (i < n)%nat ->
    vnth zero i (a_min (growF_step L b q)) = if isLess L (leps L) (vnth zero i (loF q)) (vnth zero i (a_min b)) then vnth zero i (loF q) else vnth zero i (a_min b).
  Proof. intros Hi. destruct q; cbn [growF_step aabb_add_point aabb_add_box a_min loF]; rewrite (vnth_vmap2 zero zero zero) by exact Hi; reflexivity. Qed.
  Lemma growF_max (L : Linal S) n (b : aabb S n) q i : (i < n)%nat ->
    vnth zero i (a_max (growF_step L b q)) = if isGreater L (leps L) (vnth zero i (hiF q)) (vnth zero i (a_max b)) then vnth zero i (hiF q) else vnth zero i (a_max b).
  Proof. intros Hi. destruct q; cbn [growF_step aabb_add_point aabb_add_box a_max hiF]; rewrite (vnth_vmap2 zero zero zero) by exact Hi; reflexivity. Qed.

  Lemma growF_covers (L : Linal S) t (HL : LinalF L t) n (gs : list (vec S n + aabb S n)) : forall (b : aabb S n) i, (i < n)%nat ->
    finite_pt (a_min b) -> finite_pt (a_max b) -> (forall q, In q gs -> finite_pt (@loF S n q) /\ finite_pt (@hiF S n q)) ->
    let r := fold_left (growF_step L) gs b in
    (fval i (a_min r) <= fval i (a_min b) /\ fval i (a_max b) <= fval i (a_max r)) /\
    (forall q, In q gs -> fval i (a_min r) <= fval i (@loF S n q) + t /\ fval i (@hiF S n q) <= fval i (a_max r) + t) /\
    In (vnth zero i (a_min r)) (vnth zero i (a_min b) :: map (fun q => vnth zero i (@loF S n q)) gs) /\
    In (vnth zero i (a_max r)) (vnth zero i (a_max b) :: map (fun q => vnth zero i (@hiF S n q)) gs).
  Proof.
    pose proof (lf_slack L t HL) as Ht.
    induction gs as [|q gs IH]; intros b i Hi F1 F2 Fg; cbn zeta; cbn [fold_left].
    - split; [split; lra|]. split; [intros q []|]. cbn; auto.
    - destruct (Fg q (or_introl eq_refl)) as (Fq1 & Fq2).
      assert (F1' : finite_pt (a_min (growF_step L b q))).
      { intros j Hj. rewrite growF_min by exact Hj. destruct (isLess _ _ _ _); [apply Fq1|apply F1]; exact Hj. }
      assert (F2' : finite_pt (a_max (growF_step L b q))).
      { intros j Hj. rewrite growF_max by exact Hj. destruct (isGreater _ _ _ _); [apply Fq2|apply F2]; exact Hj. }
      destruct (IH (growF_step L b q) i Hi F1' F2' (fun x Hx => Fg x (or_intror Hx))) as ([Hmn Hmx] & Hcov & Imn & Imx).
      set (r := fold_left (growF_step L) gs (growF_step L b q)) in *.
      pose proof (growF_min L n b q i Hi) as Emn. pose proof (growF_max L n b q i Hi) as Emx.
      rewrite Emn in Imn. rewrite Emx in Imx. unfold fval in Hmn at 2, Hmx at 1. rewrite Emn in Hmn. rewrite Emx in Hmx.
      specialize (Fq1 i Hi). specialize (Fq2 i Hi). specialize (F1 i Hi). specialize (F2 i Hi).
      assert (H1 : fval i (a_min r) <= fval i (a_min b) /\ fval i (a_min r) <= fval i (loF q) + t).
      { unfold fval at 2 4. destruct (isLess L (leps L) (vnth zero i (loF q)) (vnth zero i (a_min b))) eqn:E.
        - apply (lf_less_1 L t HL) in E; try assumption. lra.
        - split; [exact Hmn|]. apply Rnot_lt_le. intros C. enough (X : false = true) by discriminate X. rewrite <- E. apply (lf_less_0 L t HL); try assumption. lra. }
      assert (H2 : fval i (a_max b) <= fval i (a_max r) /\ fval i (hiF q) <= fval i (a_max r) + t).
      { unfold fval at 1 3. destruct (isGreater L (leps L) (vnth zero i (hiF q)) (vnth zero i (a_max b))) eqn:E.
        - apply (lf_greater_1 L t HL) in E; try assumption. lra.
        - split; [exact Hmx|]. apply Rnot_lt_le. intros C. enough (X : false = true) by discriminate X. rewrite <- E. apply (lf_greater_0 L t HL); try assumption. lra. }
      split; [tauto|]. split.
      + intros q' [<-|Hq]; [tauto|auto].
      + cbn [map]. split.
        * destruct Imn as [Imn|Imn]; [|right; right; exact Imn]. destruct (isLess _ _ _ _); [right; left|left]; exact Imn.
        * destruct Imx as [Imx|Imx]; [|right; right; exact Imx]. destruct (isGreater _ _ _ _); [right; left|left]; exact Imx.
  Qed.

  (** ** intersection of boxes *)
  Lemma intersectingF (L : Linal S) n (a b : aabb S n) :
    aabb_is_intersecting L a b = true <->
    forall i, (i < n)%nat -> isLessEq L (leps L) (vnth zero i (a_max a)) (vnth zero i (a_min b)) = false /\
                             isGreaterEq L (leps L) (vnth zero i (a_min a)) (vnth zero i (a_max b)) = false.
  Proof. exact (intersecting_gen L n a b). Qed.

  (** overlapping by more than the slack on every axis is noticed, and what is
      reported overlaps on every axis *)
  Lemma intersectF_sound (L : Linal S) t (HL : LinalF L t) n (a b : aabb S n) :
    finite_pt (a_min a) -> finite_pt (a_max a) -> finite_pt (a_min b) -> finite_pt (a_max b) ->
    aabb_is_intersecting L a b = true -> forall i, (i < n)%nat -> fval i (a_min b) < fval i (a_max a) /\ fval i (a_min a) < fval i (a_max b).
  Proof.
    intros F1 F2 F3 F4 H i Hi. destruct (proj1 (intersectingF L n a b) H i Hi) as (A & B).
    specialize (F1 i Hi). specialize (F2 i Hi). specialize (F3 i Hi). specialize (F4 i Hi).
    split; apply Rnot_le_lt; intros C.
    - enough (X : false = true) by discriminate X. rewrite <- A. apply (lf_lesseq_0 L t HL); assumption.
    - enough (X : false = true) by discriminate X. rewrite <- B. apply (lf_greatereq_0 L t HL); assumption.
  Qed.
  Lemma intersectF_complete (L : Linal S) t (HL : LinalF L t) n (a b : aabb S n) :
    finite_pt (a_min a) -> finite_pt (a_max a) -> finite_pt (a_min b) -> finite_pt (a_max b) ->
    (forall i, (i < n)%nat -> fval i (a_min b) + t < fval i (a_max a) /\ fval i (a_min a) + t < fval i (a_max b)) ->
    aabb_is_intersecting L a b = true.
  Proof.
    intros F1 F2 F3 F4 H. apply intersectingF. intros i Hi. destruct (H i Hi) as (A & B).
    specialize (F1 i Hi). specialize (F2 i Hi). specialize (F3 i Hi). specialize (F4 i Hi). unfold fval in A, B. split.
    - destruct (isLessEq L (leps L) (vnth zero i (a_max a)) (vnth zero i (a_min b))) eqn:E; [|reflexivity]. apply (lf_lesseq_1 L t HL) in E; try assumption. exfalso. lra.
    - destruct (isGreaterEq L (leps L) (vnth zero i (a_min a)) (vnth zero i (a_max b))) eqn:E; [|reflexivity]. apply (lf_greatereq_1 L t HL) in E; try assumption. exfalso. lra.
  Qed.

  Lemma std_maxF (a b : bf) : is_finite a = true -> is_finite b = true -> is_finite (@std_max S a b) = true /\ B2R (@std_max S a b) = Rmax (B2R a) (B2R b).
  Proof.
    intros Fa Fb. unfold std_max. change (@sltb S a b) with (Bltb a b). rewrite Bltb_correct by assumption.
    destruct (Rlt_bool_spec (B2R a) (B2R b)); (split; [assumption|]); unfold Rmax; destruct Rle_dec; lra.
  Qed.
  Lemma std_minF (a b : bf) : is_finite a = true -> is_finite b = true -> is_finite (@std_min S a b) = true /\ B2R (@std_min S a b) = Rmin (B2R a) (B2R b).
  Proof.
    intros Fa Fb. unfold std_min. change (@sltb S b a) with (Bltb b a). rewrite Bltb_correct by assumption.
    destruct (Rlt_bool_spec (B2R b) (B2R a)); (split; [assumption|]); unfold Rmin; destruct Rle_dec; lra.
  Qed.

  (** the intersection box is the exact set intersection *)
  Lemma intersectF_box (L : Linal S) fill dbg n (a b r : aabb S n) :
    finite_pt (a_min a) -> finite_pt (a_max a) -> finite_pt (a_min b) -> finite_pt (a_max b) ->
    aabb_is_intersecting L a b = true -> aabb_intersect L fill dbg a b = Ok r ->
    finite_pt (a_min r) /\ finite_pt (a_max r) /\
    forall i, (i < n)%nat -> fval i (a_min r) = Rmax (fval i (a_min a)) (fval i (a_min b)) /\ fval i (a_max r) = Rmin (fval i (a_max a)) (fval i (a_max b)).
  Proof.
    intros F1 F2 F3 F4 H E. apply intersect_inv in E; [|exact H]. subst r. cbn [a_min a_max].
    assert (A : forall i, (i < n)%nat -> vnth zero i (vmap2 (@std_max S) (a_min a) (a_min b)) = @std_max S (vnth zero i (a_min a)) (vnth zero i (a_min b)))
      by (intros i Hi; exact (vnth_vmap2 zero zero zero (@std_max S) n i _ _ Hi)).
    assert (B : forall i, (i < n)%nat -> vnth zero i (vmap2 (@std_min S) (a_max a) (a_max b)) = @std_min S (vnth zero i (a_max a)) (vnth zero i (a_max b)))
      by (intros i Hi; exact (vnth_vmap2 zero zero zero (@std_min S) n i _ _ Hi)).
    split; [|split].
    - intros i Hi. rewrite A by exact Hi. apply std_maxF; [apply F1|apply F3]; exact Hi.
    - intros i Hi. rewrite B by exact Hi. apply std_minF; [apply F2|apply F4]; exact Hi.
    - intros i Hi. unfold fval. rewrite A, B by exact Hi. split; [apply std_maxF; [apply F1|apply F3]|apply std_minF; [apply F2|apply F4]]; exact Hi.
  Qed.

  (** ** infinite coordinates *)
  Lemma make_aabb_inf (L : Linal S) (s : bool) (y z : bf) (r : aabb S 3) :
    make_aabb L false [mk3 (B754_infinity s) y z] = Ok r ->
    forall i, i = 1%nat \/ i = 2%nat -> vnth zero i (a_min r) = @Bmax_float pr ex Hpr Hex /\ vnth zero i (a_max r) = Bopp (@Bmax_float pr ex Hpr Hex).
  Proof.
    intros H i Hi. apply make_aabb_inv in H. subst r. cbn [a_min a_max fold_left].
    assert (N1 : forall w : bf, fadd (fmul (B754_infinity s) zero) w = B754_nan) by (intros w; destruct w; reflexivity).
    assert (N2 : forall c : bf, Bltb (B754_nan : bf) c = false) by (intros c; destruct c as [| | |[] ? ? ?]; reflexivity).
    assert (N3 : forall c : bf, Bltb c (B754_nan : bf) = false) by (intros c; destruct c as [[]|[]| |[] ? ? ?]; reflexivity).
    assert (D : forall j, j = 1%nat \/ j = 2%nat -> @dot S 3 (mk3 (B754_infinity s) y z) (axis_vec 3 j) = B754_nan).
    { intros j [->| ->]; [exact (N1 _)|exact (N1 _)]. }
    assert (X : forall j, j = 1%nat \/ j = 2%nat -> @extreme_step S 3 (axis_vec 3 j) (@smax S, @slowest S) (mk3 (B754_infinity s) y z) = (@smax S, @slowest S)).
    { intros j Hj. unfold extreme_step. rewrite (D j Hj). cbn [fst snd]. change (@sltb S) with (@Bltb pr ex). rewrite N2, N3. reflexivity. }
    destruct Hi as [->| ->]; cbn [vnth mk3 fst snd].
    - rewrite (X 1%nat (or_introl eq_refl)). split; reflexivity.
    - rewrite (X 2%nat (or_intror eq_refl)). split; reflexivity.
  Qed.
End BoxF.

(** ** intervals *)
Section IntervalF.
  Context {pr ex : Z} {Hpr : Prec_gt_0 pr} {Hex : Prec_lt_emax pr ex}.
  Notation bf := (binary_float pr ex).
  Context (f g h : bf -> bf) (fpi : bf).
  Let S := IEEE pr ex Hpr Hex f g h fpi.
  Context (L : Linal S) (t : R) (HL : LinalF L t).

  Lemma less_dec (a b : bf) : fin a -> fin b ->
    (isLess L (leps L) a b = true /\ B2R a < B2R b) \/ (isLess L (leps L) a b = false /\ B2R b <= B2R a + t).
  Proof.
    intros Fa Fb. destruct (isLess L (leps L) a b) eqn:E; [left|right]; split; try reflexivity.
    - exact (lf_less_1 L t HL a b Fa Fb E).
    - apply Rnot_lt_le. intros H. exact (Bool.eq_true_false_abs _ (lf_less_0 L t HL a b Fa Fb H) E).
  Qed.
  Lemma greater_dec (a b : bf) : fin a -> fin b ->
    (isGreater L (leps L) a b = true /\ B2R b < B2R a) \/ (isGreater L (leps L) a b = false /\ B2R a <= B2R b + t).
  Proof.
    intros Fa Fb. destruct (isGreater L (leps L) a b) eqn:E; [left|right]; split; try reflexivity.
    - exact (lf_greater_1 L t HL a b Fa Fb E).
    - apply Rnot_lt_le. intros H. exact (Bool.eq_true_false_abs _ (lf_greater_0 L t HL a b Fa Fb H) E).
  Qed.

  Lemma interval_F (a b c d : bf) (out : interval S) : fin a -> fin b -> fin c -> fin d -> B2R a <= B2R b -> B2R c <= B2R d ->
    let r := intersect_interval L (mkInterval (a : S) b) (mkInterval (c : S) d) out in
    ((fst r = 0%nat /\ snd r = out /\ (B2R b < B2R c \/ B2R d < B2R a)) \/
     (fst r = 1%nat /\ i_end (snd r) = i_end out /\
      ((Rabs (B2R b - B2R c) <= t /\ i_start (snd r) = b) \/ (Rabs (B2R a - B2R d) <= t /\ i_start (snd r) = a))) \/
     (fst r = 2%nat /\ B2R c < B2R b /\ B2R a < B2R d /\
      (i_start (snd r) = a \/ i_start (snd r) = c) /\ (i_end (snd r) = b \/ i_end (snd r) = d) /\
      Rmax (B2R a) (B2R c) - t <= B2R (i_start (snd r) : bf) <= Rmax (B2R a) (B2R c) /\
      Rmin (B2R b) (B2R d) <= B2R (i_end (snd r) : bf) <= Rmin (B2R b) (B2R d) + t /\
      B2R (i_start (snd r) : bf) <= B2R (i_end (snd r) : bf))) /\
    ((B2R b + t < B2R c \/ B2R d + t < B2R a) -> fst r = 0%nat) /\
    (B2R c + t < B2R b -> B2R a + t < B2R d -> fst r = 2%nat) /\
    ((B2R b = B2R c \/ B2R a = B2R d) -> fst r = 1%nat).
  Proof.
    intros Fa Fb Fc Fd Hab Hcd r. subst r. unfold intersect_interval. cbn [i_start i_end].
    pose proof (lf_slack L t HL) as Ht.
    destruct (less_dec b c Fb Fc) as [(-> & H1)|(-> & H1)]; cbn [orb fst snd i_start i_end].
    { split; [left; auto|]. split; [auto|]. split; intros; exfalso; lra. }
    destruct (greater_dec a d Fa Fd) as [(-> & H2)|(-> & H2)]; cbn [orb fst snd i_start i_end].
    { split; [left; auto|]. split; [auto|]. split; intros; exfalso; lra. }
    destruct (greater_dec b c Fb Fc) as [(-> & H3)|(-> & H3)]; cbn [orb fst snd i_start i_end].
    - destruct (less_dec a d Fa Fd) as [(-> & H4)|(-> & H4)]; cbn [orb fst snd i_start i_end].
      + split; [right; right|split; [intros; exfalso; lra|split; [reflexivity|intros; exfalso; lra]]].
        split; [reflexivity|]. split; [lra|]. split; [lra|].
        destruct (less_dec a c Fa Fc) as [(-> & H5)|(-> & H5)], (greater_dec b d Fb Fd) as [(-> & H6)|(-> & H6)];
          (split; [tauto|]); (split; [tauto|]); unfold Rmax, Rmin; destruct (Rle_dec (B2R a) (B2R c)), (Rle_dec (B2R b) (B2R d)); lra.
      + split; [right; left|split; [intros; exfalso; lra|split; [intros; exfalso; lra|reflexivity]]].
        split; [reflexivity|]. split; [reflexivity|]. right. split; [|reflexivity]. apply Rabs_le. lra.
    - split; [right; left|split; [intros; exfalso; lra|split; [intros; exfalso; lra|reflexivity]]].
      split; [reflexivity|]. split; [reflexivity|]. left. split; [|reflexivity]. apply Rabs_le. lra.
  Qed.
End IntervalF.
