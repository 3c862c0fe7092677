(** * The sweep in floating point follows the exact sweep *)

From Coq Require Import List Arith Bool Lia Permutation ZArith Reals Lra FunctionalExtensionality.
From Flocq Require Import Core BinarySingleNaN.
From Verif Require Import Scalar Linal Result SpecReal VecR VecLemmas SpecIEEE SpecFloatErr SpecFloatPlane ModelShapes ModelIntersect ModelMesh ModelSweep SpecSweep SpecFloatSweep
  ProofRound ProofIEEE ProofBoxIEEE ProofFloatErr ProofFloatNorm ProofFloatDist ProofFloatTransform ProofFloatPlane ProofFloatCross ProofFloatSphere PropFloatCross ProofMesh ProofSweep.
Import ListNotations.

(** ** Two sweeps with the same comparisons and the same answers for pairs *)
Section Sim.
  Context {S1 S2 : Scalar} (L1 : Linal S1) (L2 : Linal S2) (dbg1 dbg2 : bool) (os : ordered_set) (Hos : set_like os).
  Context (segs1 : list (segment S1 2)) (segs2 : list (segment S2 2)) (near : vec S1 2 -> vec S2 2 -> Prop).
  Let n := length segs1.
  Definition agree (r1 : res (option (vec S1 2))) (r2 : res (option (vec S2 2))) : Prop :=
    (r1 = Ok None /\ r2 = Ok None) \/ (exists q1 q2, r1 = Ok (Some q1) /\ r2 = Ok (Some q2) /\ near q1 q2).
  Context (Hlen : length segs2 = n) (Hcomp : comp segs1 = comp segs2).
  Context (Hpair : forall i j s1 s1' s2 s2', i <> j -> nth_error segs1 i = Some s1 -> nth_error segs1 j = Some s1' ->
    nth_error segs2 i = Some s2 -> nth_error segs2 j = Some s2' ->
    agree (intersect_segment2 L1 dbg1 (leps L1) s1 s1') (intersect_segment2 L2 dbg2 (leps L2) s2 s2')).

  Lemma sim_check out1 out2 i j : i < n -> j < n -> i <> j -> Forall2 near out1 out2 ->
    exists out1' out2', check L1 dbg1 segs1 out1 i j = Ok out1' /\ check L2 dbg2 segs2 out2 i j = Ok out2' /\ Forall2 near out1' out2'.
  Proof.
    intros Hi Hj Hij Ho. unfold check, at_.
    destruct (nth_error segs1 i) as [s1|] eqn:E1; [|apply nth_error_None in E1; unfold n in Hi; lia].
    destruct (nth_error segs1 j) as [s1'|] eqn:E1'; [|apply nth_error_None in E1'; unfold n in Hj; lia].
    destruct (nth_error segs2 i) as [s2|] eqn:E2; [|apply nth_error_None in E2; lia].
    destruct (nth_error segs2 j) as [s2'|] eqn:E2'; [|apply nth_error_None in E2'; lia]. cbn [bind].
    destruct (Hpair i j s1 s1' s2 s2' Hij E1 E1' E2 E2') as [(-> & ->)|(q1 & q2 & -> & -> & H)]; cbn.
    - exists out1, out2. auto.
    - eexists _, _. split; [reflexivity|]. split; [reflexivity|]. apply Forall2_app; [exact Ho|]. constructor; [exact H|constructor].
  Qed.

  Lemma sim_run evs1 evs2 : Forall2 (fun e1 e2 => ev_id e1 = ev_id e2 /\ ev_start e1 = ev_start e2) evs1 evs2 -> forall status out1 out2,
    NoDup (start_ids evs1) -> (forall i, In i status -> ~ In i (start_ids evs1)) -> NoDup status ->
    (forall i, In i status -> i < n) -> (forall e, In e evs1 -> ev_id e < n) -> Forall2 near out1 out2 ->
    exists st out1' out2', foldM (sweep_step L1 dbg1 os segs1) evs1 (status, out1) = Ok (st, out1') /\
      foldM (sweep_step L2 dbg2 os segs2) evs2 (status, out2) = Ok (st, out2') /\ Forall2 near out1' out2'.
  Proof.
    induction 1 as [|e1 e2 evs1 evs2 (Hid & Hse) Hevs IH]; intros status out1 out2 Hnd Hdis Hst Hlt Hev Ho; [exists status, out1, out2; cbn; auto|].
    cbn [foldM].
    enough (K : exists status' out1' out2', sweep_step L1 dbg1 os segs1 (status, out1) e1 = Ok (status', out1') /\
      sweep_step L2 dbg2 os segs2 (status, out2) e2 = Ok (status', out2') /\
      NoDup status' /\ (forall i, In i status' -> i < n) /\ (forall i, In i status' -> ~ In i (start_ids evs1)) /\ Forall2 near out1' out2').
    { destruct K as (status' & out1' & out2' & -> & -> & K1 & K2 & K3 & K4). cbn [bind].
      apply IH; try assumption.
      - unfold start_ids in *. cbn in Hnd. destruct (ev_start e1); [inversion Hnd|]; assumption.
      - intros x Hx. apply Hev. right. exact Hx. }
    assert (He : ev_id e1 < n) by (apply Hev; left; reflexivity).
    unfold sweep_step. rewrite <- Hid, <- Hse, <- Hcomp.
    unfold start_ids in Hnd, Hdis. cbn [filter] in Hnd, Hdis. destruct (ev_start e1); cbn [map] in Hnd, Hdis.
    - fold (start_ids evs1) in *. destruct (os_insert os (comp segs1) status (ev_id e1)) as [p st'] eqn:E.
      assert (Hst' : NoDup st' /\ (forall i, In i st' -> i < n) /\ (forall i, In i st' -> ~ In i (start_ids evs1))).
      { inversion Hnd as [|? ? Hn1 Hn2]; subst. destruct (sl_insert os Hos _ _ _ _ _ E) as [(-> & _)|(l1 & l2 & -> & -> & _)].
        - split; [exact Hst|]. split; [exact Hlt|]. intros i Hi H. apply (Hdis i Hi). right. exact H.
        - assert (Hx : ~ In (ev_id e1) (l1 ++ l2)) by (intros H; apply (Hdis _ H); left; reflexivity).
          split; [apply NoDup_Add with (l := l1 ++ l2) (a := ev_id e1); [apply Add_app|auto]|].
          split; intros i Hi; apply in_app_or in Hi as [Hi|[<-|Hi]]; try assumption; try (apply Hlt, in_or_app; auto);
            try (intros H; apply (Hdis i); [apply in_or_app; auto|right; exact H]). }
      destruct Hst' as (H1 & H2 & H3).
      destruct (nth_error st' p) as [it|] eqn:Eit; [|exists st', out1, out2; auto 8].
      assert (Hit : it < n) by (apply H2; eapply nth_error_In; eauto).
      assert (Hne : forall k y, k <> p -> nth_error st' k = Some y -> it <> y).
      { intros k y Hk Hy <-. apply Hk. eapply NoDup_nth_error; [exact H1| |congruence]. apply nth_error_Some. congruence. }
      assert (A1 : exists o1 o2, match nth_error st' (p + 1) with Some above => check L1 dbg1 segs1 out1 it above | None => Ok out1 end = Ok o1 /\
        match nth_error st' (p + 1) with Some above => check L2 dbg2 segs2 out2 it above | None => Ok out2 end = Ok o2 /\ Forall2 near o1 o2).
      { destruct (nth_error st' (p + 1)) as [y|] eqn:Ey; [|eauto].
        apply sim_check; auto; [apply H2; eapply nth_error_In; eauto|apply (Hne (p + 1)); [lia|exact Ey]]. }
      destruct A1 as (o1 & o2 & -> & -> & Ho1). cbn [bind].
      assert (A2 : exists r1 r2, match (if p =? 0 then None else nth_error st' (p - 1)) with Some below => check L1 dbg1 segs1 o1 it below | None => Ok o1 end = Ok r1 /\
        match (if p =? 0 then None else nth_error st' (p - 1)) with Some below => check L2 dbg2 segs2 o2 it below | None => Ok o2 end = Ok r2 /\ Forall2 near r1 r2).
      { destruct (p =? 0) eqn:Ep; [eauto|]. apply Nat.eqb_neq in Ep.
        destruct (nth_error st' (p - 1)) as [y|] eqn:Ey; [|eauto].
        apply sim_check; auto; [apply H2; eapply nth_error_In; eauto|apply (Hne (p - 1)); [lia|exact Ey]]. }
      destruct A2 as (r1 & r2 & -> & -> & Ho2). cbn [bind]. exists st', r1, r2. auto 8.
    - destruct (os_find os (comp segs1) status (ev_id e1)) as [p|] eqn:E; [|exists status, out1, out2; auto 8].
      apply (sl_find os Hos) in E. destruct (erase_at_split status p E) as (l1 & x & l2 & -> & -> & Er). rewrite Er.
      rewrite nth_next, nth_prev.
      assert (H1 : NoDup (l1 ++ l2)) by (apply NoDup_remove_1 in Hst; exact Hst).
      assert (H2 : forall i, In i (l1 ++ l2) -> In i (l1 ++ x :: l2)).
      { intros i Hi. apply in_app_or in Hi. apply in_or_app. cbn. intuition. }
      assert (A1 : exists o1 o2, match hd_error l2, hd_error (rev l1) with Some above, Some below => check L1 dbg1 segs1 out1 above below | _, _ => Ok out1 end = Ok o1 /\
        match hd_error l2, hd_error (rev l1) with Some above, Some below => check L2 dbg2 segs2 out2 above below | _, _ => Ok out2 end = Ok o2 /\ Forall2 near o1 o2).
      { destruct (hd_error l2) as [y|] eqn:Ey; [|eauto]. destruct (hd_error (rev l1)) as [z|] eqn:Ez; [|eauto].
        apply hd_error_In in Ey. apply hd_error_In, in_rev in Ez.
        apply sim_check; auto; [apply Hlt, H2, in_or_app; auto|apply Hlt, H2, in_or_app; auto|].
        intros <-. clear - H1 Ey Ez. induction l1 as [|a l1 IH]; [destruct Ez|]. cbn in H1. inversion H1; subst.
        destruct Ez as [->|Ez]; [apply H2; apply in_or_app; auto|auto]. }
      destruct A1 as (o1 & o2 & -> & -> & Ho1). cbn [bind]. exists (l1 ++ l2), o1, o2. auto 10.
  Qed.

  Lemma sim_sweep evs1 evs2 : Permutation (events segs1) evs1 -> Forall2 (fun e1 e2 => ev_id e1 = ev_id e2 /\ ev_start e1 = ev_start e2) evs1 evs2 ->
    exists out1 out2, sweep L1 dbg1 os segs1 evs1 = Ok out1 /\ sweep L2 dbg2 os segs2 evs2 = Ok out2 /\ Forall2 near out1 out2.
  Proof.
    intros Hp Hev. unfold sweep.
    destruct (sim_run evs1 evs2 Hev [] [] []) as (st & o1 & o2 & -> & -> & Ho).
    - apply (start_ids_perm segs1), Hp.
    - intros i [].
    - constructor.
    - intros i [].
    - intros e He. apply Permutation_sym in Hp. apply (Permutation_in _ Hp), In_events in He as (i & s & Hs & He).
      assert (Hi : i < n) by (apply nth_error_Some; congruence). destruct He as [-> | ->]; exact Hi.
    - constructor.
    - cbn. eauto.
  Qed.
End Sim.

(** the debug assertion only ever aborts *)
Lemma segment2_release {S : Scalar} (L : Linal S) dbg s s' r : intersect_segment2 L dbg (leps L) s s' = Ok r -> intersect_segment2 L false (leps L) s s' = Ok r.
Proof.
  unfold intersect_segment2. cbv zeta. destruct (isZero L _ _); [auto|]. destruct (_ || _); [auto|]. destruct dbg; [|auto].
  unfold geo_assert. destruct (veq L _ _); cbn; [auto|discriminate].
Qed.

Local Open Scope R_scope.

Section FS.
Context {p e : Z} {Hp : Prec_gt_0 p} {He : Prec_lt_emax p e}.
Notation bf := (binary_float p e).
Notation u := (uround p).
Notation eta := (uflow p e).
Notation fdiv := (@Bdiv p e Hp He mode_NE).
Notation fsub := (@Bminus p e Hp He mode_NE).
Notation fmul := (@Bmult p e Hp He mode_NE).
Notation fadd := (@Bplus p e Hp He mode_NE).
Notation zero := (B754_zero false : bf).
Notation rnd := (@rndf p e).
Context (fc fs fa : bf -> bf) (fpi : bf).
Notation S := (IEEE p e Hp He fc fs fa fpi).

(** ** Heights *)
(** [y + (y' - y) (x - x0) / (x1 - x0)] *)
Definition fheight (y y' x x0 x1 : bf) : bf := fadd y (fdiv (fmul (fsub y' y) (fsub x x0)) (fsub x1 x0)).

Lemma fsub_near (x y : bf) : fin x -> fin y -> Rabs (B2R x - B2R y) <= bpow radix2 (e - 2) ->
  fin (fsub x y) /\ exists k, Rabs k <= u /\ B2R (fsub x y) = (B2R x - B2R y) * (1 + k).
Proof.
  intros Fx Fy H. assert (K : fin (fsub x y) /\ B2R (fsub x y) = rnd (B2R x - B2R y)).
  { apply sub_ok; try assumption. apply rnd_small. eapply Rle_trans; [exact H|]. apply bpow_le. lia. }
  destruct K as [F E]. split; [exact F|].
  pose proof (rnd_sum (B2R x) (- B2R y) (B2R_fmt x) (generic_format_opp _ _ _ (B2R_fmt y))) as R. change (B2R x + - B2R y) with (B2R x - B2R y) in R. rewrite <- E in R.
  destruct (Req_dec (B2R x - B2R y) 0) as [Z|Z].
  - exists 0. rewrite Rabs_R0. split; [left; apply u_pos|]. rewrite Z in *. rewrite Rabs_R0, Rmult_0_r, Rminus_0_r in R.
    assert (Q : B2R (fsub x y) = 0). { destruct (Req_dec (B2R (fsub x y)) 0) as [Q|Q]; [exact Q|]. apply Rabs_pos_lt in Q. lra. } rewrite Q. ring.
  - exists ((B2R (fsub x y) - (B2R x - B2R y)) / (B2R x - B2R y)). split; [|field; exact Z].
    unfold Rdiv. rewrite Rabs_mult, Rabs_inv. apply Rmult_le_reg_r with (Rabs (B2R x - B2R y)); [apply Rabs_pos_lt, Z|].
    rewrite Rmult_assoc, Rinv_l, Rmult_1_r by (apply Rabs_no_R0, Z). exact R.
Qed.

Lemma abs_prod1 x y X Y : Rabs x <= X -> Rabs y <= Y -> Rabs (x * y) <= X * Y.
Proof. intros H K. rewrite Rabs_mult. apply Rmult_le_compat; try apply Rabs_pos; assumption. Qed.

(** the product of the relative errors *)
Lemma quotient_err k1 k2 k3 k4 : u <= 1 / 128 -> Rabs k1 <= u -> Rabs k2 <= u -> Rabs k3 <= u -> Rabs k4 <= u ->
  Rabs ((1 + k1) * (1 + k2) * (1 + k4) / (1 + k3) - 1) <= 5 * u.
Proof.
  intros Hu1 H1 H2 H3 H4. pose proof (@u_pos p) as Hu. apply Rabs_le_inv in H1, H2, H3, H4.
  assert (D : 0 < 1 + k3) by lra.
  assert (U : (1 + k1) * (1 + k2) * (1 + k4) <= (1 + u) * (1 + u) * (1 + u)).
  { apply Rmult_le_compat; try lra; [apply Rmult_le_pos; lra|]. apply Rmult_le_compat; lra. }
  assert (V : (1 - u) * (1 - u) * (1 - u) <= (1 + k1) * (1 + k2) * (1 + k4)).
  { apply Rmult_le_compat; try lra; [apply Rmult_le_pos; lra|]. apply Rmult_le_compat; lra. }
  assert (Q : u * u <= u * (1 / 128)) by (apply Rmult_le_compat_l; lra). assert (Q0 : 0 <= u * u) by (apply Rmult_le_pos; lra).
  assert (Q3 : u * (u * u) <= 1 / 128 * (u * u)) by (apply Rmult_le_compat_r; lra). assert (Q30 : 0 <= u * (u * u)) by (apply Rmult_le_pos; lra).
  replace ((1 + u) * (1 + u) * (1 + u)) with (1 + 3 * u + 3 * (u * u) + u * (u * u)) in U by ring.
  replace ((1 - u) * (1 - u) * (1 - u)) with (1 - 3 * u + 3 * (u * u) - u * (u * u)) in V by ring.
  set (N := (1 + k1) * (1 + k2) * (1 + k4)) in *.
  assert (K3 : u * k3 <= u * u /\ - (u * u) <= u * k3) by (split; [apply Rmult_le_compat_l; lra|replace (- (u * u)) with (u * - u) by ring; apply Rmult_le_compat_l; lra]).
  apply Rabs_le. split.
  - apply Rmult_le_reg_r with (1 + k3); [exact D|]. replace ((N / (1 + k3) - 1) * (1 + k3)) with (N - (1 + k3)) by (field; lra). lra.
  - apply Rmult_le_reg_r with (1 + k3); [exact D|]. replace ((N / (1 + k3) - 1) * (1 + k3)) with (N - (1 + k3)) by (field; lra). lra.
Qed.

Lemma rnd_split x : exists k h, Rabs k <= u /\ Rabs h <= eta /\ rnd x = x * (1 + k) + h.
Proof. destruct (@rnd_err p e Hp x) as (k & h & H1 & H2 & H3). exists k, h. auto. Qed.

Lemma fheight_err (y y' x x0 x1 : bf) : u <= 1 / 128 -> fin y -> fin y' -> fin x -> fin x0 -> fin x1 -> B2R x1 <> B2R x0 ->
  let W := B2R x1 - B2R x0 in let D := B2R y' - B2R y in let X := B2R x - B2R x0 in let C := Rabs (D * (X / W)) in
  Rabs W <= bpow radix2 (e - 2) -> Rabs D <= bpow radix2 (e - 2) -> Rabs X <= bpow radix2 (e - 2) -> Rabs D * Rabs X <= bpow radix2 (e - 3) ->
  Rabs (B2R y) + 2 * C + 2 * (eta / Rabs W) <= bpow radix2 (e - 3) ->
  fin (fheight y y' x x0 x1) /\ Rabs (B2R (fheight y y' x x0 x1) - (B2R y + D * (X / W))) <= u * (Rabs (B2R y) + 8 * C) + (3 / Rabs W + 2) * eta.
Proof.
  intros Hu1 Fy Fy' Fx F0 F1 HW W D X C BW BD BX BDX BY. pose proof (@u_pos p) as Hu. pose proof (@eta_pos p e) as Hh. change (@ProofFloatErr.eta p e) with eta in *.
  assert (Heu : eta <= u) by (apply bpow_le; unfold Prec_gt_0 in Hp; unfold Prec_lt_emax in He; lia).
  assert (Hp5 : (7 <= p)%Z). { assert (Q : u <= bpow radix2 (-7)) by (cbn; lra). apply le_bpow in Q. lia. }
  assert (E3 : 1 <= bpow radix2 (e - 3)) by (apply (bpow_le radix2 0); unfold Prec_lt_emax in He; lia).
  assert (E1 : bpow radix2 (e - 1) = 4 * bpow radix2 (e - 3)) by (replace (e - 1)%Z with (2 + (e - 3))%Z by lia; rewrite bpow_plus; reflexivity).
  assert (W0 : W <> 0) by (unfold W; lra). assert (AW : 0 < Rabs W) by (apply Rabs_pos_lt, W0).
  destruct (fsub_near y' y Fy' Fy BD) as (FD & k1 & K1 & ED). destruct (fsub_near x x0 Fx F0 BX) as (FX & k2 & K2 & EX). destruct (fsub_near x1 x0 F1 F0 BW) as (FW & k3 & K3 & EW).
  fold D in ED. fold X in EX. fold W in EW. unfold fheight. set (fd := fsub y' y) in *. set (fx := fsub x x0) in *. set (fw := fsub x1 x0) in *.
  assert (A0 : 0 <= Rabs D * Rabs X) by (apply Rmult_le_pos; apply Rabs_pos).
  assert (L1 : 0 < 1 + k3) by (apply Rabs_le_inv in K3; lra).
  assert (fw0 : B2R fw <> 0) by (rewrite EW; apply Rmult_integral_contrapositive_currified; lra).
  assert (G1 : Rabs (1 + k1) <= 129 / 128) by (apply Rabs_le_inv in K1; apply Rabs_le; lra).
  assert (G2 : Rabs (1 + k2) <= 129 / 128) by (apply Rabs_le_inv in K2; apply Rabs_le; lra).
  assert (BP : Rabs (B2R fd * B2R fx) <= 2 * (Rabs D * Rabs X)).
  { rewrite ED, EX. replace (D * (1 + k1) * (X * (1 + k2))) with (D * X * ((1 + k1) * (1 + k2))) by ring. rewrite Rabs_mult, (Rabs_mult D X), (Rmult_comm 2).
    apply Rmult_le_compat_l; [exact A0|]. eapply Rle_trans; [apply (abs_prod1 _ _ _ _ G1 G2)|]. lra. }
  assert (MP : fin (fmul fd fx) /\ B2R (fmul fd fx) = rnd (B2R fd * B2R fx)) by (apply mul_ok; try assumption; apply rnd_small; lra).
  destruct MP as [FM EM]. destruct (rnd_split (B2R fd * B2R fx)) as (k4 & h4 & K4 & H4 & R4). rewrite R4 in EM. clear R4 BP.
  (* the exact quotient of the rounded numbers *)
  set (rho := (1 + k1) * (1 + k2) * (1 + k4) / (1 + k3)). set (g := h4 / (W * (1 + k3))).
  assert (EQ : B2R (fmul fd fx) / B2R fw = D * (X / W) * rho + g).
  { rewrite EM, ED, EX, EW. unfold rho, g. field. split; [lra|exact W0]. }
  pose proof (quotient_err k1 k2 k3 k4 Hu1 K1 K2 K3 K4) as HR. fold rho in HR.
  assert (I0 : 0 < / Rabs W) by (apply Rinv_0_lt_compat, AW).
  assert (Hg : Rabs g <= 129 / 127 * (eta * / Rabs W)).
  { assert (Eg : Rabs g = Rabs h4 * (/ Rabs W * / Rabs (1 + k3))) by (unfold g, Rdiv; rewrite Rabs_mult, Rabs_inv, Rabs_mult, Rinv_mult; reflexivity). rewrite Eg.
    assert (Q : / Rabs (1 + k3) <= 129 / 127).
    { apply Rabs_le_inv in K3. rewrite (Rabs_pos_eq (1 + k3)) by lra. replace (129 / 127) with (/ (127 / 129)) by field. apply Rinv_le_contravar; lra. }
    replace (129 / 127 * (eta * / Rabs W)) with (eta * (/ Rabs W * (129 / 127))) by ring.
    apply Rmult_le_compat; try apply Rabs_pos; [|exact H4|].
    - apply Rmult_le_pos; [lra|]. left. apply Rinv_0_lt_compat, Rabs_pos_lt. lra.
    - apply Rmult_le_compat_l; [lra|exact Q]. }
  set (Z := D * (X / W)) in *. assert (C0 : 0 <= C) by apply Rabs_pos. fold Z in C.
  assert (Hq : Rabs (Z * rho + g - Z) <= 5 * (u * C) + 129 / 127 * (eta * / Rabs W)).
  { replace (Z * rho + g - Z) with (Z * (rho - 1) + g) by ring. eapply Rle_trans; [apply Rabs_triang|]. apply Rplus_le_compat; [|exact Hg].
    rewrite Rabs_mult. fold C. replace (5 * (u * C)) with (C * (5 * u)) by ring. apply Rmult_le_compat_l; assumption. }
  unfold Rdiv in BY at 1. set (gw := eta * / Rabs W) in *. assert (gw0 : 0 <= gw) by (apply Rmult_le_pos; lra).
  assert (uC : 0 <= u * C) by (apply Rmult_le_pos; lra). assert (uC1 : u * C <= 1 / 128 * C) by (apply Rmult_le_compat_r; lra).
  assert (ug : u * gw <= 1 / 128 * gw) by (apply Rmult_le_compat_r; lra). assert (ug0 : 0 <= u * gw) by (apply Rmult_le_pos; lra).
  assert (uuC : u * (u * C) <= 1 / 128 * (u * C)) by (apply Rmult_le_compat_r; lra).
  assert (AQ : Rabs (Z * rho + g) <= C + (5 * (u * C) + 129 / 127 * gw)).
  { replace (Z * rho + g) with (Z + (Z * rho + g - Z)) by ring. eapply Rle_trans; [apply Rabs_triang|]. fold C. lra. }
  pose proof (Rabs_pos (B2R y)) as Y0.
  assert (DP : fin (fdiv (fmul fd fx) fw) /\ B2R (fdiv (fmul fd fx) fw) = rnd (B2R (fmul fd fx) / B2R fw)).
  { apply div_ok; try assumption. rewrite EQ. apply rnd_small. lra. }
  destruct DP as [FQ EQ2]. rewrite EQ in EQ2. pose proof (@rnd_near p e Hp (Z * rho + g)) as RN. change (@ProofFloatErr.eta p e) with eta in RN. rewrite <- EQ2 in RN.
  set (q := fdiv (fmul fd fx) fw) in *. clear EQ2 EQ.
  assert (RN2 : Rabs (B2R q - (Z * rho + g)) <= u * (C + (5 * (u * C) + 129 / 127 * gw)) + eta).
  { eapply Rle_trans; [exact RN|]. apply Rplus_le_compat_r, Rmult_le_compat_l; lra. }
  assert (RQ : Rabs (B2R q - Z) <= 63 / 10 * (u * C) + 11 / 10 * gw + eta).
  { replace (B2R q - Z) with ((B2R q - (Z * rho + g)) + (Z * rho + g - Z)) by ring. eapply Rle_trans; [apply Rabs_triang|].
    replace (u * (C + (5 * (u * C) + 129 / 127 * gw))) with (u * C + 5 * (u * (u * C)) + 129 / 127 * (u * gw)) in RN2 by ring. lra. }
  assert (AS : Rabs (B2R y + B2R q) <= Rabs (B2R y) + C + (63 / 10 * (u * C) + 11 / 10 * gw + eta)).
  { replace (B2R y + B2R q) with (B2R y + Z + (B2R q - Z)) by ring. eapply Rle_trans; [apply Rabs_triang|]. apply Rplus_le_compat; [|exact RQ].
    eapply Rle_trans; [apply Rabs_triang|]. right. reflexivity. }
  assert (AP : fin (fadd y q) /\ B2R (fadd y q) = rnd (B2R y + B2R q)) by (apply add_ok; try assumption; apply rnd_small; lra).
  destruct AP as [FA EA]. split; [exact FA|]. rewrite EA.
  pose proof (rnd_sum (B2R y) (B2R q) (B2R_fmt y) (B2R_fmt q)) as RS.
  assert (RS2 : Rabs (rnd (B2R y + B2R q) - (B2R y + B2R q)) <= u * (Rabs (B2R y) + C + (63 / 10 * (u * C) + 11 / 10 * gw + eta))).
  { eapply Rle_trans; [exact RS|]. apply Rmult_le_compat_l; lra. }
  replace (rnd (B2R y + B2R q) - (B2R y + Z)) with ((rnd (B2R y + B2R q) - (B2R y + B2R q)) + (B2R q - Z)) by ring.
  eapply Rle_trans; [apply Rabs_triang|].
  replace ((3 / Rabs W + 2) * eta) with (3 * gw + 2 * eta) by (unfold gw, Rdiv; ring).
  replace (u * (Rabs (B2R y) + 8 * C)) with (u * Rabs (B2R y) + 8 * (u * C)) by ring.
  replace (u * (Rabs (B2R y) + C + (63 / 10 * (u * C) + 11 / 10 * gw + eta))) with (u * Rabs (B2R y) + u * C + 63 / 10 * (u * (u * C)) + 11 / 10 * (u * gw) + u * eta) in RS2 by ring.
  assert (ue : u * eta <= 1 / 128 * eta) by (apply Rmult_le_compat_r; lra). lra.
Qed.

Lemma compute_y_F (a0 a1 b0 b1 x : bf) :
  @compute_y S (@mkSegment S 2 (a0, (a1, tt)) (b0, (b1, tt))) x = if Beqb a0 b0 then a1 else fheight a1 b1 x a0 b0.
Proof. reflexivity. Qed.

Lemma height_err M (s : segment S 2) (x : bf) : u <= 1 / 128 -> @finite_pt p e 2 (g_source s) -> @finite_pt p e 2 (g_target s) -> fin x ->
  run (exact_segment M s) <> 0 -> height_room p e (exact_segment M s) (B2R x) ->
  fin (@compute_y S s x : bf) /\ Rabs (B2R (@compute_y S s x : bf) - height (exact_segment M s) (B2R x)) <= height_bound p e (exact_segment M s) (B2R x).
Proof.
  destruct s as [[a0 [a1 []]] [b0 [b1 []]]]. unfold height_room, height_bound, climb, run, rise, height, exact_segment. cbn [g_source g_target]. unfold vreal. cbn [vmap fst snd].
  intros Hu1 Fa Fb Fx HW (B1 & B2 & B3 & B4 & B5).
  pose proof (Fa 0%nat ltac:(lia)) as Fa0. pose proof (Fa 1%nat ltac:(lia)) as Fa1. pose proof (Fb 0%nat ltac:(lia)) as Fb0. pose proof (Fb 1%nat ltac:(lia)) as Fb1.
  cbn [vnth fst snd] in Fa0, Fa1, Fb0, Fb1. rewrite compute_y_F.
  assert (Q : Beqb a0 b0 = false). { rewrite Beqb_correct by assumption. apply Req_bool_false. intros E. apply HW. rewrite E. ring. }
  rewrite Q. apply fheight_err; try assumption. intros E. apply HW. rewrite E. ring.
Qed.

(** ** The comparison *)
Lemma std_min_F (a b : bf) : fin a -> fin b -> fin (@std_min S a b : bf) /\ B2R (@std_min S a b : bf) = Rmin (B2R a) (B2R b).
Proof.
  intros Fa Fb. unfold std_min. change (@sltb S b a) with (@Bltb p e b a). rewrite Bltb_correct by assumption.
  destruct (Rlt_bool_spec (B2R b) (B2R a)); split; try assumption; [rewrite Rmin_right|rewrite Rmin_left]; lra.
Qed.
Lemma std_max_F (a b : bf) : fin a -> fin b -> fin (@std_max S a b : bf) /\ B2R (@std_max S a b : bf) = Rmax (B2R a) (B2R b).
Proof.
  intros Fa Fb. unfold std_max. change (@sltb S a b) with (@Bltb p e a b). rewrite Bltb_correct by assumption.
  destruct (Rlt_bool_spec (B2R a) (B2R b)); split; try assumption; [rewrite Rmax_right|rewrite Rmax_left]; lra.
Qed.
Lemma Bltb_self (x : bf) : Bltb x x = false.
Proof. destruct x as [s|[]| |s m k H]; try reflexivity. rewrite Bltb_correct by reflexivity. apply Rlt_bool_false. lra. Qed.

Lemma first_x_F M (s s' : segment S 2) :
  @finite_pt p e 2 (g_source s) -> @finite_pt p e 2 (g_target s) -> @finite_pt p e 2 (g_source s') -> @finite_pt p e 2 (g_target s') ->
  let x := @std_max S (@std_min S (fst (g_source s)) (fst (g_target s))) (@std_min S (fst (g_source s')) (fst (g_target s'))) : bf in
  fin x /\ B2R x = first_x (exact_segment M s) (exact_segment M s').
Proof.
  destruct s as [[a0 [a1 []]] [b0 [b1 []]]], s' as [[c0 [c1 []]] [d0 [d1 []]]]. unfold first_x, exact_segment. cbn [g_source g_target]. unfold vreal. cbn [vmap fst snd].
  intros Fa Fb Fc Fd.
  pose proof (Fa 0%nat ltac:(lia)) as Fa0. pose proof (Fb 0%nat ltac:(lia)) as Fb0. pose proof (Fc 0%nat ltac:(lia)) as Fc0. pose proof (Fd 0%nat ltac:(lia)) as Fd0.
  cbn [vnth fst snd] in Fa0, Fb0, Fc0, Fd0.
  destruct (std_min_F a0 b0 Fa0 Fb0) as (G1 & E1). destruct (std_min_F c0 d0 Fc0 Fd0) as (G2 & E2).
  destruct (std_max_F _ _ G1 G2) as (G3 & E3). split; [exact G3|]. rewrite E3, E1, E2. reflexivity.
Qed.

Lemma below_exact M (s s' : segment (RS M) 2) : run s <> 0 -> run s' <> 0 ->
  below s s' = Rltb (height s (first_x s s')) (height s' (first_x s s')).
Proof.
  intros H H'.
  assert (E : @std_max (RS M) (@std_min (RS M) (fst (g_source s)) (fst (g_target s))) (@std_min (RS M) (fst (g_source s')) (fst (g_target s'))) = first_x s s').
  { assert (mn : forall a b : R, @std_min (RS M) a b = Rmin a b) by (intros a b; unfold std_min, Rmin; cbn; unfold Rltb; destruct (Rlt_dec b a), (Rle_dec a b); reflexivity || lra).
    assert (mx : forall a b : R, @std_max (RS M) a b = Rmax a b) by (intros a b; unfold std_max, Rmax; cbn; unfold Rltb; destruct (Rlt_dec a b), (Rle_dec a b); lra).
    unfold first_x. rewrite <- !mn. symmetry. rewrite <- mx. reflexivity. }
  assert (C : forall (r : segment (RS M) 2) x, run r <> 0 -> compute_y r x = height r x).
  { intros r x. destruct r as [[a0 [a1 []]] [b0 [b1 []]]]. unfold run, compute_y, height. cbn. intros N. unfold Reqb. destruct (Req_EM_T a0 b0); [lra|]. field. exact N. }
  unfold below. cbv zeta. rewrite E, !C by assumption. reflexivity.
Qed.

Lemma below_clear M (s s' : segment S 2) : u <= 1 / 128 ->
  @finite_pt p e 2 (g_source s) -> @finite_pt p e 2 (g_target s) -> @finite_pt p e 2 (g_source s') -> @finite_pt p e 2 (g_target s') ->
  run (exact_segment M s) <> 0 -> run (exact_segment M s') <> 0 -> clear_order p e (exact_segment M s) (exact_segment M s') ->
  below s s' = below (exact_segment M s) (exact_segment M s').
Proof.
  intros Hu1 Fa Fb Fa' Fb' R1 R2 (H1 & H2 & H3). rewrite below_exact by assumption.
  destruct (first_x_F M s s' Fa Fb Fa' Fb') as (Fx & Ex). set (x := @std_max S _ _ : bf) in Fx, Ex.
  rewrite <- Ex in H1, H2, H3 |- *.
  destruct (height_err M s x Hu1 Fa Fb Fx R1 H1) as (F1 & E1). destruct (height_err M s' x Hu1 Fa' Fb' Fx R2 H2) as (F2 & E2).
  unfold below. cbv zeta. fold x. change (@sltb S) with (@Bltb p e). rewrite Bltb_correct by assumption.
  apply Rabs_le_inv in E1, E2. set (h1 := height (exact_segment M s) (B2R x)) in *. set (h2 := height (exact_segment M s') (B2R x)) in *.
  unfold Rltb. destruct (Rlt_dec h1 h2) as [Q|Q].
  - rewrite Rabs_left in H3 by lra. apply Rlt_bool_true. lra.
  - rewrite Rabs_pos_eq in H3 by lra. apply Rlt_bool_false. lra.
Qed.

(** ** Two segments *)
Lemma param_near (a b a' b' : vec bf 2) (T T' : R) : u <= 1 / 128 -> finite_pt a -> finite_pt b -> finite_pt a' -> finite_pt b' ->
  let d := rsub (vreal b) (vreal a) in let d' := rsub (vreal b') (vreal a') in
  crossing_scene p e (vreal a) d (vreal a') d' -> along (vreal a) d T = along (vreal a') d' T' ->
  let v := @vsub S 2 b a : vec bf 2 in let w := @vsub S 2 b' a' : vec bf 2 in let m := @vsub S 2 a' a : vec bf 2 in
  let Tf := fdiv (numT m w) (detA v w) in let Tf' := fdiv (numS v m) (detA v w) in
  rdist (vreal v) d <= u * rnorm d /\ rdist (vreal w) d' <= u * rnorm d' /\ finite_pt v /\ finite_pt w /\ fin (detA v w) /\ Rabs (B2R (detA v w) - det2 d d') <= slope_bound p e (perp d') d /\ fin Tf /\ fin Tf' /\
  Rabs (B2R Tf - T) <= param_bound p e (vreal a) d (vreal a') d' T /\ Rabs (B2R Tf' - T') <= param_bound p e (vreal a') d' (vreal a) d T'.
Proof.
  intros Hu1 Fa Fb Fa' Fb' d d' HS Hx v w m Tf Tf'.
  destruct (seg2_params fc fs fa fpi a b a' b' Hu1 Fa Fb Fa' Fb' HS) as (Hv & Hw & Fv & Fw & FD & ED & FT & FT' & H1 & H2).
  fold v in Hv, Fv, FD, ED, FT, FT', H1, H2. fold w in Hw, Fw, FD, ED, FT, FT', H1, H2. fold m in FT, FT', H1, H2. fold Tf in FT, H1. fold Tf' in FT', H2. fold d d' in Hv, Hw, ED, H1, H2.
  destruct (rdot_perp d d') as (P1 & P2).
  assert (O1 : on_plane (vreal a') (perp d') (along (vreal a) d T)).
  { rewrite Hx. unfold on_plane. rewrite det2_perp. clear. destruct (vreal a') as (o0 & o1 & []), d' as (e0 & e1 & []). unfold det2, along, rsub, rscale, radd. cbn. ring. }
  assert (O2 : on_plane (vreal a) (perp d) (along (vreal a') d' T')).
  { rewrite <- Hx. unfold on_plane. rewrite det2_perp. clear. destruct (vreal a) as (o0 & o1 & []), d as (e0 & e1 & []). unfold det2, along, rsub, rscale, radd. cbn. ring. }
  pose proof (near_exact 2 _ _ _ _ _ _ H1 O1) as K1. pose proof (near_exact 2 _ _ _ _ _ _ H2 O2) as K2.
  rewrite P1 in K1. rewrite P2, Rabs_Ropp in K2.
  assert (HA : 0 <= slope_bound p e (perp d') d) by (eapply Rle_trans; [apply Rabs_pos|exact ED]).
  assert (HD : 0 < Rabs (det2 d d') - slope_bound p e (perp d') d) by (destruct HS as (_ & _ & _ & _ & HD); lra).
  split; [exact Hv|]. split; [exact Hw|]. split; [exact Fv|]. split; [exact Fw|]. split; [exact FD|]. split; [exact ED|]. split; [exact FT|]. split; [exact FT'|].
  assert (K : forall x y z, 0 < z -> x * z <= y -> x <= y / z).
  { intros x y z Hz H. apply Rmult_le_reg_r with z; [exact Hz|]. unfold Rdiv. rewrite Rmult_assoc, Rinv_l, Rmult_1_r by lra. exact H. }
  pose proof (slope_bound_swap (p := p) (e := e) d d') as SW. unfold param_bound. split; [exact (K _ _ _ HD K1)|].
  rewrite SW in K2 |- *. rewrite (det2_anti d d'), Rabs_Ropp. exact (K _ _ _ HD K2).
Qed.

Context (L : Linal S) (t : R) (HL : LinalF L t).

Lemma in_unit (X : bf) : fin X -> 0 <= B2R X <= 1 -> isLess L (leps L) X zero = false /\ isGreater L (leps L) X (@s1 S) = false.
Proof.
  intros FX HX. destruct (@one_spec p e Hp He) as [F1 E1]. change (ieee_pow p e Hp He 1 0) with (@s1 S) in F1, E1. split.
  - destruct (isLess L (leps L) X zero) eqn:Q; [|reflexivity]. apply (lf_less_1 _ _ HL X zero FX eq_refl) in Q. change (B2R zero) with 0 in Q. lra.
  - destruct (isGreater L (leps L) X (@s1 S)) eqn:Q; [|reflexivity]. apply (lf_greater_1 _ _ HL X (@s1 S) FX F1) in Q. rewrite E1 in Q. lra.
Qed.
Lemma out_of_unit (X : bf) : fin X -> B2R X < - t \/ 1 + t < B2R X -> isLess L (leps L) X zero = true \/ isGreater L (leps L) X (@s1 S) = true.
Proof.
  intros FX HX. destruct (@one_spec p e Hp He) as [F1 E1]. change (ieee_pow p e Hp He 1 0) with (@s1 S) in F1, E1. destruct HX as [HX|HX].
  - left. apply (lf_less_0 _ _ HL X zero FX eq_refl). change (B2R zero) with 0. lra.
  - right. apply (lf_greater_0 _ _ HL X (@s1 S) FX F1). rewrite E1. lra.
Qed.

Lemma hit_float dbg w (s s' : segment S 2) : u <= 1 / 128 ->
  @finite_pt p e 2 (g_source s) -> @finite_pt p e 2 (g_target s) -> @finite_pt p e 2 (g_source s') -> @finite_pt p e 2 (g_target s') ->
  (dbg = true -> forall x y : vec bf 2, finite_pt x -> finite_pt y -> rdist (vreal x) (vreal y) <= w -> veq L x y = true) ->
  forall T T' : R, let a := vreal (g_source s : vec bf 2) in let d := rsub (vreal (g_target s : vec bf 2)) a in
  let a' := vreal (g_source s' : vec bf 2) in let d' := rsub (vreal (g_target s' : vec bf 2)) a' in
  along a d T = along a' d' T' -> crossing_scene p e a d a' d' ->
  t + slope_bound p e (perp d') d < Rabs (det2 d d') ->
  param_bound p e a d a' d' T <= T <= 1 - param_bound p e a d a' d' T ->
  param_bound p e a' d' a d T' <= T' <= 1 - param_bound p e a' d' a d T' ->
  rnorm a <= bpow radix2 (e - 3) -> rnorm a' <= bpow radix2 (e - 3) -> rnorm d <= bpow radix2 (e - 5) -> rnorm d' <= bpow radix2 (e - 5) ->
  point_bound p e a d 1 + rnorm d * param_bound p e a d a' d' T <= w ->
  point_bound p e a d 1 + gap_bound p e a d a' d' 1 1 + point_bound p e a' d' 1 <= w ->
  exists q : vec bf 2, @intersect_segment2 S L dbg (leps L) s s' = Ok (Some q) /\ finite_pt q /\ rdist (vreal q) (along a d T) <= w.
Proof.
  destruct s as [sa sb], s' as [sa' sb']. cbn [g_source g_target]. intros Hu1 Fa Fb Fa' Fb' Hveq T T'.
  set (a := vreal (sa : vec bf 2)). set (a' := vreal (sa' : vec bf 2)). set (d := rsub (vreal (sb : vec bf 2)) a). set (d' := rsub (vreal (sb' : vec bf 2)) a').
  intros Hx HS HD HT HT' B1 B2 B3 B4 HW HW2. pose proof (@u_pos p) as Hu. pose proof (lf_slack _ _ HL) as Ht0.
  pose proof (param_near sa sb sa' sb' T T' Hu1 Fa Fb Fa' Fb' HS Hx) as (Hv & Hw & Fv & Fw & FD & ED & FT & FT' & K1 & K2).
  pose proof (seg2_params fc fs fa fpi sa sb sa' sb' Hu1 Fa Fb Fa' Fb' HS) as (_ & _ & _ & _ & _ & _ & _ & _ & H1 & H2).
  pose proof (segment2_unfold p e Hp He fc fs fa fpi L dbg sa sb sa' sb') as U. cbv zeta in U. rewrite U. clear U.
  set (v := @vsub S 2 sb sa : vec bf 2) in *. set (ww := @vsub S 2 sb' sa' : vec bf 2) in *. set (m := @vsub S 2 sa' sa : vec bf 2) in *.
  set (D := detA v ww : bf) in *. set (Tf := @Bdiv p e Hp He mode_NE (numT m ww) D) in *. set (Tf' := @Bdiv p e Hp He mode_NE (numS v m) D) in *.
  fold a in Hv, Hw, ED, K1, K2, H1, H2. fold a' in Hv, Hw, ED, K1, K2, H1, H2. fold d d' in Hv, Hw, ED, K1, K2, H1, H2.
  assert (Z : isZero L (leps L) D = false).
  { destruct (isZero L (leps L) D) eqn:Z; [|reflexivity]. exfalso. apply (lf_zero_1 _ _ HL _ FD) in Z.
    assert (Rabs (det2 d d') <= Rabs (B2R D) + Rabs (B2R D - det2 d d')); [|lra].
    replace (det2 d d') with (B2R D - (B2R D - det2 d d')) at 1 by ring. unfold Rminus at 1. eapply Rle_trans; [apply Rabs_triang|]. rewrite Rabs_Ropp. lra. }
  assert (R1 : 0 <= B2R Tf <= 1) by (pose proof (Rabs_le_inv _ _ K1); lra). assert (R2 : 0 <= B2R Tf' <= 1) by (pose proof (Rabs_le_inv _ _ K2); lra).
  destruct (in_unit Tf FT R1) as (G1 & G2). destruct (in_unit Tf' FT' R2) as (G3 & G4). rewrite Z, G1, G2, G3, G4. cbn [orb].
  assert (RA1 : Rabs (B2R Tf) <= 1) by (apply Rabs_le; lra). assert (RA2 : Rabs (B2R Tf') <= 1) by (apply Rabs_le; lra).
  assert (E5 : bpow radix2 (e - 3) = 4 * bpow radix2 (e - 5)) by (replace (e - 3)%Z with (2 + (e - 5))%Z by lia; rewrite bpow_plus; reflexivity).
  assert (FP : forall (o sd : vec bf 2) (ds : vec R 2) (X : bf), finite_pt o -> finite_pt sd -> is_finite X = true -> Rabs (B2R X) <= 1 ->
    rnorm (vreal o) <= bpow radix2 (e - 3) -> rdist (vreal sd) ds <= u * rnorm ds -> rnorm ds <= bpow radix2 (e - 5) ->
    finite_pt (@vadd S 2 o (@vscale S 2 X sd) : vec bf 2)).
  { intros o sd ds X Fo Fs FX HX Ho Hs Hds. apply (point_finite fc fs fa fpi 2 o sd X); try assumption.
    assert (Ns : rnorm (vreal sd) <= (1 + u) * rnorm ds).
    { replace (vreal sd) with (radd ds (rsub (vreal sd) ds)) by apply radd_rsub. eapply Rle_trans; [apply rnorm_triangle|]. unfold rdist in Hs. lra. }
    apply Rle_trans with (1 * (2 * bpow radix2 (e - 5))); [|pose proof (bpow_ge_0 radix2 (e - 5)); lra]. apply Rmult_le_compat; [apply Rabs_pos|apply rnorm_nonneg|lra|].
    eapply Rle_trans; [exact Ns|]. apply Rmult_le_compat; [lra|apply rnorm_nonneg|lra|exact Hds]. }
  pose proof (FP sa v d Tf Fa Fv FT RA1 B1 Hv B3) as FQ1. pose proof (FP sa' ww d' Tf' Fa' Fw FT' RA2 B2 Hw B4) as FQ2.
  destruct (point_near fc fs fa fpi 2 sa v d Tf Hu1 ltac:(lia) Hv FQ1) as (_ & _ & P1). destruct (point_near fc fs fa fpi 2 sa' ww d' Tf' Hu1 ltac:(lia) Hw FQ2) as (_ & _ & P2).
  fold a in P1. fold a' in P2.
  pose proof (point_bound_mono (p := p) (e := e) 2 a d (B2R Tf) 1 RA1) as PM1. pose proof (point_bound_mono (p := p) (e := e) 2 a' d' (B2R Tf') 1 RA2) as PM2.
  set (q := @vadd S 2 sa (@vscale S 2 Tf v) : vec bf 2) in *. set (q' := @vadd S 2 sa' (@vscale S 2 Tf' ww) : vec bf 2) in *.
  assert (V : geo_assert dbg (veq L q q') = Ok tt).
  { destruct dbg; [|reflexivity]. assert (V : veq L q q' = true); [|rewrite V; reflexivity].
    assert (D0 : det2 d d' <> 0).
    { intros Q. rewrite Q, Rabs_R0 in HD. assert (0 <= slope_bound p e (perp d') d) by (eapply Rle_trans; [apply Rabs_pos|exact ED]). lra. }
    pose proof (gap a d a' d' (B2R Tf) (B2R Tf') D0 H1 H2) as G. pose proof (gap_bound_mono (p := p) (e := e) a d a' d' (B2R Tf) (B2R Tf') 1 D0 RA1 RA2) as GM.
    apply (Hveq eq_refl); [exact FQ1|exact FQ2|]. eapply Rle_trans; [apply (rdist_triangle _ (along a d (B2R Tf)))|].
    eapply Rle_trans; [apply Rplus_le_compat_l, (rdist_triangle _ (along a' d' (B2R Tf')))|]. rewrite (rdist_sym (along a' d' (B2R Tf'))). lra. }
  exists q. split; [|split; [exact FQ1|]].
  - change (@veq S L 2 (@vadd S 2 sa (@vscale S 2 Tf v)) (@vadd S 2 sa' (@vscale S 2 Tf' ww))) with (veq L q q'). rewrite V. reflexivity.
  - eapply Rle_trans; [apply (rdist_triangle _ (along a d (B2R Tf)))|].
    assert (E : rdist (along a d (B2R Tf)) (along a d T) = Rabs (B2R Tf - T) * rnorm d).
    { unfold rdist. rewrite <- rnorm_scale. f_equal. clear. destruct a as (o0 & o1 & []), d as (e0 & e1 & []). unfold along, rsub, rscale, radd. cbn. repeat (apply f_equal2; [ring|]). reflexivity. }
    rewrite E. pose proof (Rmult_le_compat_r (rnorm d) _ _ (rnorm_nonneg d) K1). lra.
Qed.

Lemma miss_float M dbg (s s' : segment S 2) : u <= 1 / 128 ->
  @finite_pt p e 2 (g_source s) -> @finite_pt p e 2 (g_target s) -> @finite_pt p e 2 (g_source s') -> @finite_pt p e 2 (g_target s') ->
  clear_miss p e t (exact_segment M s) (exact_segment M s') -> @intersect_segment2 S L dbg (leps L) s s' = Ok None.
Proof.
  destruct s as [sa sb], s' as [sa' sb']. unfold clear_miss, exact_segment. cbn [g_source g_target]. intros Hu1 Fa Fb Fa' Fb' (T & T' & Hx & HS & HC).
  pose proof (param_near sa sb sa' sb' T T' Hu1 Fa Fb Fa' Fb' HS Hx) as (_ & _ & _ & _ & _ & _ & FT & FT' & K1 & K2).
  pose proof (segment2_unfold p e Hp He fc fs fa fpi L dbg sa sb sa' sb') as U. cbv zeta in U. rewrite U. clear U.
  destruct (isZero L (leps L) _); [reflexivity|].
  apply Rabs_le_inv in K1, K2.
  assert (Q : forall b1 b2 b3 b4 : bool, (b3 = true \/ b4 = true) \/ (b1 = true \/ b2 = true) -> b1 || b2 || b3 || b4 = true) by (intros [] [] [] [] [[]|[]]; reflexivity || discriminate).
  rewrite Q; [reflexivity|]. destruct HC as [HC|[HC|[HC|HC]]].
  - left. apply (out_of_unit _ FT). left. lra.
  - left. apply (out_of_unit _ FT). right. lra.
  - right. apply (out_of_unit _ FT'). left. lra.
  - right. apply (out_of_unit _ FT'). right. lra.
Qed.

Lemma level_float M dbg (s s' : segment S 2) : u <= 1 / 128 ->
  @finite_pt p e 2 (g_source s) -> @finite_pt p e 2 (g_target s) -> @finite_pt p e 2 (g_source s') -> @finite_pt p e 2 (g_target s') ->
  both_level e (exact_segment M s) (exact_segment M s') -> @intersect_segment2 S L dbg (leps L) s s' = Ok None.
Proof.
  destruct s as [sa sb], s' as [sa' sb']. unfold both_level, exact_segment, rise. cbn [g_source g_target]. intros Hu1 Fa Fb Fa' Fb' (R1 & R2 & N1 & N2 & N12).
  assert (Hu2 : u <= 1 / 2) by lra.
  assert (Fv : finite_pt (@vsub S 2 sb sa : vec bf 2)) by (apply (sub_finite_near fc fs fa fpi 2 sb sa); [exact Hu2|exact Fb|exact Fa|exact N1]).
  assert (Fw : finite_pt (@vsub S 2 sb' sa' : vec bf 2)) by (apply (sub_finite_near fc fs fa fpi 2 sb' sa'); [exact Hu2|exact Fb'|exact Fa'|exact N2]).
  pose proof (sub_err fc fs fa fpi 2 sb sa Fb Fa Fv) as Hv. pose proof (sub_err fc fs fa fpi 2 sb' sa' Fb' Fa' Fw) as Hw.
  pose proof (is_det_fin (detA (@vsub S 2 sb sa : vec bf 2) (@vsub S 2 sb' sa' : vec bf 2)) _ _ _ _ Hu1 (is_det_1 _ _) Fv Fw Hv Hw N12) as FD.
  pose proof (segment2_unfold p e Hp He fc fs fa fpi L dbg sa sb sa' sb') as U. cbv zeta in U. rewrite U. clear U.
  assert (Z : B2R (detA (@vsub S 2 sb sa : vec bf 2) (@vsub S 2 sb' sa' : vec bf 2) : bf) = 0).
  { assert (Y : forall c d : vec bf 2, finite_pt (@vsub S 2 d c : vec bf 2) -> fst (snd (vreal d)) - fst (snd (vreal c)) = 0 -> B2R (fst (snd (@vsub S 2 d c : vec bf 2))) = 0).
    { intros c d F E. specialize (F 1%nat ltac:(lia)). destruct c as (c0 & c1 & []), d as (d0 & d1 & []). unfold vreal in E. cbn [vmap fst snd] in E.
      change (fin (fsub d1 c1)) in F. change (B2R (fsub d1 c1) = 0). apply sub_fin in F as (_ & _ & Q). rewrite Q, E. apply round_0. exact _. }
    pose proof (Y _ _ Fv R1) as Y1. pose proof (Y _ _ Fw R2) as Y2. unfold detA in FD |- *.
    pose proof (sub_fin _ _ FD) as (F1 & F2 & Q). rewrite Q. apply mul_fin in F1 as (_ & _ & Q1). apply mul_fin in F2 as (_ & _ & Q2).
    rewrite Q1, Q2, Y1, Y2, !Rmult_0_r. unfold rndf. rewrite round_0 by exact _. rewrite Rminus_0_r. apply round_0. exact _. }
  rewrite (lf_zero_0 _ _ HL _ FD Z). reflexivity.
Qed.
End FS.
