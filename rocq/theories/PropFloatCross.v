(** * Property theorems: intersections of lines and segments of the plane in floating point (C73) *)

From Coq Require Import List Arith Bool Lia Reals Lra ZArith.
From Flocq Require Import Core BinarySingleNaN.
From Verif Require Import Scalar Linal Result SpecReal VecR VecLemmas SpecIEEE SpecFloatErr SpecFloatPlane ModelShapes ModelIntersect
  ProofRound ProofIEEE ProofBoxIEEE ProofFloatErr ProofFloatNorm ProofFloatDist ProofFloatTransform ProofFloatPlane ProofFloatCross PropFloatTess PropFloatPlane.
Local Open Scope R_scope.

Section SG.
Context {p e : Z} {Hp : Prec_gt_0 p} {He : Prec_lt_emax p e}.
Notation bf := (binary_float p e).
Notation u := (uround p).
Notation eta := (uflow p e).
Notation fdiv := (@Bdiv p e Hp He mode_NE).
Notation fsub := (@Bminus p e Hp He mode_NE).
Notation fmul := (@Bmult p e Hp He mode_NE).
Notation zero := (B754_zero false : bf).
Context (fc fs fa : bf -> bf) (fpi : bf).
Let S := IEEE p e Hp He fc fs fa fpi.

(** the point at a parameter, with a rounded direction *)
Lemma point_near n (o sd : vec bf n) (d : vec R n) (t : bf) : u <= 1 / 128 -> (0 < n <= 3)%nat -> rdist (vreal sd) d <= u * rnorm d ->
  finite_pt (@vadd S n o (@vscale S n t sd) : vec bf n) ->
  fin t /\ finite_pt o /\ rdist (vreal (@vadd S n o (@vscale S n t sd))) (along (vreal o) d (B2R t)) <= point_bound p e (vreal o) d (B2R t).
Proof.
  intros Hu1 Hn Hd F. pose proof (point_dist fc fs fa fpi n o sd t Hu1 F ltac:(lia)) as K. cbv zeta in K. fold S in K.
  destruct (point_err fc fs fa fpi n o sd t Hu1 F ltac:(lia)) as (Fo & _ & Ft & _). split; [exact Ft|]. split; [exact Fo|].
  set (q := vreal (@vadd S n o (@vscale S n t sd))) in *.
  eapply Rle_trans; [apply (rdist_triangle _ (along (vreal o) (vreal sd) (B2R t)))|].
  assert (E : rdist (along (vreal o) (vreal sd) (B2R t)) (along (vreal o) d (B2R t)) = Rabs (B2R t) * rdist (vreal sd) d).
  { unfold rdist. rewrite <- rnorm_scale. unfold rnorm. f_equal. unfold along. vring. }
  assert (Nsd : rnorm (vreal sd) <= (1 + u) * rnorm d).
  { replace (vreal sd) with (radd d (rsub (vreal sd) d)) by apply radd_rsub. eapply Rle_trans; [apply rnorm_triangle|]. unfold rdist in Hd. lra. }
  rewrite E. change (@ProofFloatErr.eta p e) with eta in *. pose proof (rnorm_nonneg d) as L0. pose proof (@u_pos p) as Hu. pose proof (@eta_pos p e) as Hh. change (@ProofFloatErr.eta p e) with eta in *.
  set (a := Rabs (B2R t)) in *. assert (a0 : 0 <= a) by apply Rabs_pos. set (L := rnorm d) in *.
  assert (K1 : a * rdist (vreal sd) d <= a * (u * L)) by (apply Rmult_le_compat_l; [exact a0|exact Hd]).
  assert (K2 : u * a * rnorm (vreal sd) <= u * a * ((1 + u) * L)) by (apply Rmult_le_compat_l; [apply Rmult_le_pos; lra|exact Nsd]).
  assert (uaL : 0 <= u * a * L) by (repeat apply Rmult_le_pos; lra).
  assert (K3 : u * (u * a * L) <= 1 / 128 * (u * a * L)) by (apply Rmult_le_compat_r; lra).
  assert (Hi : INR n <= 3) by (replace 3 with (INR 3) by (cbn; ring); apply le_INR; lia).
  assert (K4 : 2 * INR n * eta <= 6 * eta) by (apply Rmult_le_compat_r; lra).
  unfold point_bound. fold a L. lra.
Qed.

Lemma point_finite n (o sd : vec bf n) (t : bf) : u <= 1 / 128 -> finite_pt o -> finite_pt sd -> fin t ->
  rnorm (vreal o) <= bpow radix2 (e - 3) -> Rabs (B2R t) * rnorm (vreal sd) <= bpow radix2 (e - 3) ->
  finite_pt (@vadd S n o (@vscale S n t sd) : vec bf n).
Proof.
  intros Hu1 Fo Fs Ft Bo Bs i Hi. assert (Hp0 : (7 <= p)%Z) by (assert (Q : u <= bpow radix2 (-7)) by (cbn; lra); apply le_bpow in Q; lia). assert (He0 : (p < e)%Z) by exact He.
  assert (E : vnth zero i (@vadd S n o (@vscale S n t sd) : vec bf n) = @Bplus p e Hp He mode_NE (vnth zero i o) (fmul t (vnth zero i sd))).
  { unfold vadd, vscale. etransitivity; [apply (vnth_vmap2 zero zero zero); exact Hi|].
    change (@Bplus p e Hp He mode_NE (vnth zero i o) (vnth zero i (vmap (fun a : bf => fmul t a) sd)) = @Bplus p e Hp He mode_NE (vnth zero i o) (fmul t (vnth zero i sd))).
    f_equal. exact (vnth_vmap zero zero (fun a : bf => fmul t a) n i sd Hi). }
  rewrite E.
  assert (K : forall x : vec bf n, Rabs (B2R (vnth zero i x)) <= rnorm (vreal x)).
  { intros x. pose proof (rdot_ge n (vreal x) i Hi) as Q. rewrite <- rnorm_sq, vnth_real in Q. apply abs_le_of_sq; [apply rnorm_nonneg|exact Q]. }
  assert (B0 : forall k x, (3 - e - p <= k)%Z -> Rabs x <= bpow radix2 k -> Rabs (rndf p e x) <= bpow radix2 k).
  { intros k x Hk Hx. rewrite <- rnd_abs, <- (rnd_id (p := p) (e := e) (bpow radix2 k)) by (apply fmt_pow; exact Hk). apply rnd_le. exact Hx. }
  assert (X1 : Rabs (B2R t * B2R (vnth zero i sd)) <= bpow radix2 (e - 3)).
  { rewrite Rabs_mult. eapply Rle_trans; [|exact Bs]. apply Rmult_le_compat_l; [apply Rabs_pos|apply K]. }
  pose proof (B0 (e - 3)%Z _ ltac:(lia) X1) as X2.
  assert (L1 : bpow radix2 (e - 3) < bpow radix2 e) by (apply bpow_lt; lia). assert (L2 : bpow radix2 (e - 2) < bpow radix2 e) by (apply bpow_lt; lia).
  destruct (mul_ok t (vnth zero i sd) Ft (Fs i Hi) ltac:(lra)) as (F1 & E1). 
  apply (add_ok _ _ (Fo i Hi) F1). rewrite E1. eapply Rle_lt_trans; [|exact L2]. apply B0; [lia|].
  assert (E3 : bpow radix2 (e - 2) = 2 * bpow radix2 (e - 3)) by (replace (e - 2)%Z with (1 + (e - 3))%Z by lia; rewrite bpow_plus; reflexivity).
  eapply Rle_trans; [apply Rabs_triang|]. pose proof (K o). lra.
Qed.

(** the denominator and numerators of the two parameters *)
Definition detA (v w : vec bf 2) : bf := fsub (fmul (fst v) (fst (snd w))) (fmul (fst w) (fst (snd v))).
Definition numT (m w : vec bf 2) : bf := fsub (fmul (fst m) (fst (snd w))) (fmul (fst (snd m)) (fst w)).
Definition numS (v m : vec bf 2) : bf := fsub (fmul (fst v) (Bopp (fst (snd m)))) (fmul (fst (snd v)) (Bopp (fst m))).

Lemma numT_finite (m w : vec bf 2) : fin (numT m w) -> finite_pt m /\ finite_pt w.
Proof.
  intros F. unfold numT in F. apply sub_fin in F as (F1 & F2 & _). apply mul_fin in F1 as (F3 & F4 & _). apply mul_fin in F2 as (F5 & F6 & _).
  destruct m as (m0 & m1 & []), w as (w0 & w1 & []). split; intros [|[|i]] Hi; try lia; assumption.
Qed.
(** the second line as the hyperplane with normal [perp w'] *)
Lemma hit2 (o o' v w : vec bf 2) (v' w' : vec R 2) : u <= 1 / 128 ->
  rdist (vreal v) v' <= u * rnorm v' -> rdist (vreal w) w' <= u * rnorm w' -> finite_pt o -> finite_pt o' ->
  let m := @vsub S 2 o' o : vec bf 2 in let T := fdiv (numT m w) (detA v w) in
  fin (detA v w) -> fin T ->
  Rabs (rdot (perp w') (rsub (along (vreal o) v' (B2R T)) (vreal o'))) <= plane_bound p e (vreal o') (perp w') (vreal o) v' (B2R T).
Proof.
  intros Hu1 Hv Hw Fo Fo' m T FD FT. destruct (div_fin _ _ FD FT) as (FN & _ & _). destruct (numT_finite m w FN) as (Fm & Fw).
  pose proof (sub_err fc fs fa fpi 2 o' o Fo' Fo Fm) as Hm. fold S in Hm. fold m in Hm.
  pose proof (is_det_err (detA v w) v w v' w' Hu1 (is_det_1 v w) FD Hv Hw) as ED.
  pose proof (is_det_err (numT m w) m w (rsub (vreal o') (vreal o)) w' Hu1 (is_det_2 m w) FN Hm Hw) as EN.
  change (rnorm (rsub (vreal o') (vreal o))) with (rdist (vreal o') (vreal o)) in EN.
  pose proof (solve_err (numT m w) (detA v w) (det2 (rsub (vreal o') (vreal o)) w') (det2 v' w') (rnorm v') (rnorm w') (rdist (vreal o') (vreal o))
    Hu1 FD FT (rnorm_nonneg _) (rnorm_nonneg _) (rnorm_nonneg _) EN ED (det2_le _ _) (det2_le _ _)) as K. cbv zeta in K. fold T in K.
  unfold plane_bound. rewrite perp_norm.
  assert (E : rdot (perp w') (rsub (along (vreal o) v' (B2R T)) (vreal o')) = B2R T * det2 v' w' - det2 (rsub (vreal o') (vreal o)) w').
  { rewrite det2_perp. clear. destruct (vreal o) as (o0 & o1 & []), (vreal o') as (p0 & p1 & []), v' as (v0 & v1 & []), w' as (w0 & w1 & []).
    unfold det2, along, radd, rscale, rsub. cbn. ring. }
  rewrite E. eapply Rle_trans; [exact K|]. lra.
Qed.
Lemma hit2' (o o' v w : vec bf 2) (v' w' : vec R 2) : u <= 1 / 128 ->
  rdist (vreal v) v' <= u * rnorm v' -> rdist (vreal w) w' <= u * rnorm w' -> finite_pt o -> finite_pt o' ->
  let m := @vsub S 2 o' o : vec bf 2 in let T := fdiv (numS v m) (detA v w) in
  finite_pt m -> fin (detA v w) -> fin T ->
  Rabs (rdot (perp v') (rsub (along (vreal o') w' (B2R T)) (vreal o))) <= plane_bound p e (vreal o) (perp v') (vreal o') w' (B2R T).
Proof.
  intros Hu1 Hv Hw Fo Fo' m T Fm FD FT. destruct (div_fin _ _ FD FT) as (FN & _ & _).
  pose proof (sub_err fc fs fa fpi 2 o' o Fo' Fo Fm) as Hm. fold S in Hm. fold m in Hm.
  pose proof (is_det_err (detA v w) v w v' w' Hu1 (is_det_1 v w) FD Hv Hw) as ED.
  pose proof (is_det_err (numS v m) m v (rsub (vreal o') (vreal o)) v' Hu1 (is_det_3 v m) FN Hm Hv) as EN.
  change (rnorm (rsub (vreal o') (vreal o))) with (rdist (vreal o') (vreal o)) in EN. rewrite (Rmult_comm (rnorm v') (rnorm w')) in ED.
  pose proof (solve_err (numS v m) (detA v w) (det2 (rsub (vreal o') (vreal o)) v') (det2 v' w') (rnorm w') (rnorm v') (rdist (vreal o') (vreal o))
    Hu1 FD FT (rnorm_nonneg _) (rnorm_nonneg _) (rnorm_nonneg _) EN ED (det2_le _ _) ltac:(rewrite Rmult_comm; apply det2_le)) as K. cbv zeta in K. fold T in K.
  unfold plane_bound. rewrite perp_norm, (rdist_sym (vreal o)).
  assert (E : rdot (perp v') (rsub (along (vreal o') w' (B2R T)) (vreal o)) = - (B2R T * det2 v' w' - det2 (rsub (vreal o') (vreal o)) v')).
  { rewrite det2_perp. clear. destruct (vreal o) as (o0 & o1 & []), (vreal o') as (p0 & p1 & []), v' as (v0 & v1 & []), w' as (w0 & w1 & []).
    unfold det2, along, radd, rscale, rsub. cbn. ring. }
  rewrite E, Rabs_Ropp. eapply Rle_trans; [exact K|]. lra.
Qed.

(** two approximate solutions: the points of both lines are close *)
Lemma two_points (d d' v : vec R 2) : rnorm v * Rabs (det2 d d') <= rnorm d * Rabs (det2 v d') + rnorm d' * Rabs (det2 v d).
Proof.
  assert (E : rscale (det2 d d') v = rsub (rscale (det2 v d') d) (rscale (det2 v d) d')).
  { destruct d as (d0 & d1 & []), d' as (e0 & e1 & []), v as (v0 & v1 & []). unfold det2, rsub, rscale. cbn. repeat (apply f_equal2; [ring|]). reflexivity. }
  replace (rnorm v * Rabs (det2 d d')) with (rnorm (rscale (det2 d d') v)) by (rewrite rnorm_scale; ring).
  rewrite E. replace (rsub (rscale (det2 v d') d) (rscale (det2 v d) d')) with (radd (rscale (det2 v d') d) (rscale (- det2 v d) d')).
  - eapply Rle_trans; [apply rnorm_triangle|]. rewrite !rnorm_scale, Rabs_Ropp. lra.
  - destruct d as (d0 & d1 & []), d' as (e0 & e1 & []). unfold rsub, rscale, radd. cbn. repeat (apply f_equal2; [ring|]). reflexivity.
Qed.
Lemma two_points_along (o o' d d' : vec R 2) T T' :
  rdist (along o d T) (along o' d' T') * Rabs (det2 d d') <=
    rnorm d * Rabs (rdot (perp d') (rsub (along o d T) o')) + rnorm d' * Rabs (rdot (perp d) (rsub (along o' d' T') o)).
Proof.
  rewrite !det2_perp. eapply Rle_trans; [apply (two_points d d')|]. apply Rplus_le_compat; apply Rmult_le_compat_l; try apply rnorm_nonneg; right.
  - f_equal. destruct d as (d0 & d1 & []), d' as (e0 & e1 & []), o as (o0 & o1 & []), o' as (p0 & p1 & []). unfold det2, along, rsub, rscale, radd. cbn. ring.
  - rewrite <- Rabs_Ropp. f_equal. destruct d as (d0 & d1 & []), d' as (e0 & e1 & []), o as (o0 & o1 & []), o' as (p0 & p1 & []). unfold det2, along, rsub, rscale, radd. cbn. ring.
Qed.

(** the computed parameter is near every exact one *)
Lemma near_exact n (po nrm o d : vec R n) T tau :
  Rabs (rdot nrm (rsub (along o d T) po)) <= plane_bound p e po nrm o d T -> on_plane po nrm (along o d tau) ->
  Rabs (T - tau) * (Rabs (rdot d nrm) - slope_bound p e nrm d) <= plane_bound p e po nrm o d tau.
Proof.
  intros K Hpl. unfold on_plane in Hpl.
  assert (E : rdot nrm (rsub (along o d T) po) = (T - tau) * rdot d nrm).
  { rewrite <- (Rminus_0_r (rdot nrm (rsub (along o d T) po))), <- Hpl. unfold along. vring. }
  rewrite E, Rabs_mult in K. unfold plane_bound, slope_bound in *. set (W := rnorm nrm) in *. set (L := rnorm d) in *.
  assert (W0 : 0 <= W) by apply rnorm_nonneg. assert (L0 : 0 <= L) by apply rnorm_nonneg. pose proof (@u_pos p) as Hu. pose proof (@eta_pos p e) as Hh. change (@ProofFloatErr.eta p e) with eta in *.
  assert (B : Rabs T <= Rabs (T - tau) + Rabs tau) by (replace T with (T - tau + tau) at 1 by ring; apply Rabs_triang).
  set (x := Rabs (T - tau)) in *. set (y := Rabs T) in *. set (z := Rabs tau) in *.
  assert (A0 : 0 <= 7 * u * (L * W) + 4 * eta). { assert (0 <= u * (L * W)) by (repeat apply Rmult_le_pos; lra). lra. }
  assert (K1 : (7 * u * (L * W) + 4 * eta) * y <= (7 * u * (L * W) + 4 * eta) * (x + z)) by (apply Rmult_le_compat_l; lra).
  lra.
Qed.

Lemma rdot_perp (d d' : vec R 2) : rdot d (perp d') = det2 d d' /\ rdot d' (perp d) = - det2 d d'.
Proof. rewrite (rdot_comm d), (rdot_comm d'), !det2_perp, (det2_anti d' d). split; ring. Qed.
Lemma slope_bound_swap (d d' : vec R 2) : slope_bound p e (perp d) d' = slope_bound p e (perp d') d.
Proof. unfold slope_bound. rewrite !perp_norm. ring. Qed.

(** all intermediate results for two segments *)
Lemma seg2_params (a b a' b' : vec bf 2) : u <= 1 / 128 -> finite_pt a -> finite_pt b -> finite_pt a' -> finite_pt b' ->
  let d := rsub (vreal b) (vreal a) in let d' := rsub (vreal b') (vreal a') in
  crossing_scene p e (vreal a) d (vreal a') d' ->
  let v := @vsub S 2 b a : vec bf 2 in let w := @vsub S 2 b' a' : vec bf 2 in let m := @vsub S 2 a' a : vec bf 2 in
  let T := fdiv (numT m w) (detA v w) in let T' := fdiv (numS v m) (detA v w) in
  rdist (vreal v) d <= u * rnorm d /\ rdist (vreal w) d' <= u * rnorm d' /\ finite_pt v /\ finite_pt w /\
  fin (detA v w) /\ Rabs (B2R (detA v w) - det2 d d') <= slope_bound p e (perp d') d /\ fin T /\ fin T' /\
  Rabs (rdot (perp d') (rsub (along (vreal a) d (B2R T)) (vreal a'))) <= plane_bound p e (vreal a') (perp d') (vreal a) d (B2R T) /\
  Rabs (rdot (perp d) (rsub (along (vreal a') d' (B2R T')) (vreal a))) <= plane_bound p e (vreal a) (perp d) (vreal a') d' (B2R T').
Proof.
  intros Hu1 Fa Fb Fa' Fb' d d' ((R1 & R2 & R3 & R4) & (R1' & R2' & R3' & R4') & N1 & N2 & HD) v w m T T'.
  pose proof (@u_pos p) as Hu. pose proof (@eta_pos p e) as Hh. change (@ProofFloatErr.eta p e) with eta in *.
  assert (Hu2 : u <= 1 / 2) by lra.
  destruct (rdot_perp d d') as (P1 & P2). rewrite P1 in R4. rewrite P2, Rabs_Ropp in R4'. rewrite perp_norm in R1, R3, R4, R1', R3', R4'.
  rewrite (rdist_sym (vreal a)) in R3', R4'.
  assert (Fv : finite_pt v) by (apply (sub_finite_near fc fs fa fpi 2 b a); [exact Hu2|exact Fb|exact Fa|exact N1]).
  assert (Fw : finite_pt w) by (apply (sub_finite_near fc fs fa fpi 2 b' a'); [exact Hu2|exact Fb'|exact Fa'|exact N2]).
  assert (Fm : finite_pt m) by (apply (sub_finite_near fc fs fa fpi 2 a' a); [exact Hu2|exact Fa'|exact Fa|exact R2]).
  pose proof (sub_err fc fs fa fpi 2 b a Fb Fa Fv) as Hv. pose proof (sub_err fc fs fa fpi 2 b' a' Fb' Fa' Fw) as Hw. pose proof (sub_err fc fs fa fpi 2 a' a Fa' Fa Fm) as Hm.
  fold S in Hv, Hw, Hm. fold v d in Hv. fold w d' in Hw. fold m in Hm. change (rdist (vreal b) (vreal a)) with (rnorm d) in Hv. change (rdist (vreal b') (vreal a')) with (rnorm d') in Hw.
  set (mm := rsub (vreal a') (vreal a)) in *. change (rdist (vreal a') (vreal a)) with (rnorm mm) in *.
  pose proof (is_det_fin (detA v w) v w d d' Hu1 (is_det_1 v w) Fv Fw Hv Hw R1) as FD.
  pose proof (is_det_err (detA v w) v w d d' Hu1 (is_det_1 v w) FD Hv Hw) as ED.
  pose proof (is_det_fin (numT m w) m w mm d' Hu1 (is_det_2 m w) Fm Fw Hm Hw R3) as FN1.
  pose proof (is_det_err (numT m w) m w mm d' Hu1 (is_det_2 m w) FN1 Hm Hw) as EN1.
  pose proof (is_det_fin (numS v m) m v mm d Hu1 (is_det_3 v m) Fm Fv Hm Hv R3') as FN2.
  pose proof (is_det_err (numS v m) m v mm d Hu1 (is_det_3 v m) FN2 Hm Hv) as EN2.
  assert (HD' : 2 * (7 * u * (rnorm d * rnorm d') + 4 * eta) < Rabs (det2 d d')) by (unfold slope_bound in HD; rewrite perp_norm in HD; exact HD).
  assert (uLW : 0 <= u * (rnorm d * rnorm d')) by (repeat apply Rmult_le_pos; try apply rnorm_nonneg; lra).
  assert (FT : fin T).
  { apply (solve_fin (numT m w) (detA v w) (det2 mm d') (det2 d d') (rnorm d) (rnorm d') (rnorm mm) Hu1 FN1 FD); try apply rnorm_nonneg; try assumption; [apply det2_le|lra]. }
  assert (FT' : fin T').
  { apply (solve_fin (numS v m) (detA v w) (det2 mm d) (det2 d d') (rnorm d') (rnorm d) (rnorm mm) Hu1 FN2 FD); try apply rnorm_nonneg; try assumption; [rewrite (Rmult_comm (rnorm d')); exact ED|apply det2_le|rewrite (Rmult_comm (rnorm d')); lra]. }
  split; [exact Hv|]. split; [exact Hw|]. split; [exact Fv|]. split; [exact Fw|]. split; [exact FD|].
  split; [unfold slope_bound; rewrite perp_norm; lra|]. split; [exact FT|]. split; [exact FT'|].
  split; [exact (hit2 a a' v w d d' Hu1 Hv Hw Fa Fa' FD FT)|exact (hit2' a a' v w d d' Hu1 Hv Hw Fa Fa' Fm FD FT')].
Qed.

(** bounds grow with the parameter *)
Lemma plane_bound_mono n (po nrm o d : vec R n) T T' : Rabs T <= T' -> plane_bound p e po nrm o d T <= plane_bound p e po nrm o d T'.
Proof.
  intros H. pose proof (Rabs_pos T). rewrite <- (Rabs_pos_eq T') in H by lra. unfold plane_bound. pose proof (@u_pos p) as Hu. pose proof (@eta_pos p e) as Hh. change (@ProofFloatErr.eta p e) with eta in *.
  pose proof (rnorm_nonneg nrm). pose proof (rnorm_nonneg d). set (x := Rabs T) in *. set (y := Rabs T') in *.
  assert (K1 : x * rnorm d <= y * rnorm d) by (apply Rmult_le_compat_r; assumption).
  apply Rplus_le_compat; [apply Rmult_le_compat_l; [repeat apply Rmult_le_pos; lra|lra]|apply Rmult_le_compat_l; lra].
Qed.
Lemma point_bound_mono n (o d : vec R n) T T' : Rabs T <= T' -> point_bound p e o d T <= point_bound p e o d T'.
Proof.
  intros H. pose proof (Rabs_pos T). rewrite <- (Rabs_pos_eq T') in H by lra. unfold point_bound. pose proof (@u_pos p) as Hu.
  pose proof (rnorm_nonneg d). set (x := Rabs T) in *. set (y := Rabs T') in *.
  assert (K1 : x * rnorm d <= y * rnorm d) by (apply Rmult_le_compat_r; assumption).
  apply Rplus_le_compat_r, Rmult_le_compat_l; lra.
Qed.
Lemma gap_bound_mono (a d a' d' : vec R 2) T T' U : det2 d d' <> 0 -> Rabs T <= U -> Rabs T' <= U -> gap_bound p e a d a' d' T T' <= gap_bound p e a d a' d' U U.
Proof.
  intros HD H H'. unfold gap_bound. apply Rmult_le_compat_r; [left; apply Rinv_0_lt_compat, Rabs_pos_lt, HD|].
  apply Rplus_le_compat; apply Rmult_le_compat_l; try apply rnorm_nonneg; apply plane_bound_mono; assumption.
Qed.
Lemma gap (a d a' d' : vec R 2) T T' : det2 d d' <> 0 ->
  Rabs (rdot (perp d') (rsub (along a d T) a')) <= plane_bound p e a' (perp d') a d T ->
  Rabs (rdot (perp d) (rsub (along a' d' T') a)) <= plane_bound p e a (perp d) a' d' T' ->
  rdist (along a d T) (along a' d' T') <= gap_bound p e a d a' d' T T'.
Proof.
  intros HD H H'. assert (D0 : 0 < Rabs (det2 d d')) by (apply Rabs_pos_lt, HD). unfold gap_bound. apply Rmult_le_reg_r with (Rabs (det2 d d')); [exact D0|].
  unfold Rdiv. rewrite Rmult_assoc, Rinv_l, Rmult_1_r by lra. eapply Rle_trans; [apply two_points_along|].
  apply Rplus_le_compat; apply Rmult_le_compat_l; try apply rnorm_nonneg; assumption.
Qed.
End SG.


(** ** C73: the point reported for two lines of the plane is nearly on both; none is
    reported only if they are nearly parallel *)
Theorem C73_lines :
  forall (p e : Z) (Hp : Prec_gt_0 p) (He : Prec_lt_emax p e) f g h pi, let S := IEEE p e Hp He f g h pi in
  forall (L : Linal S) (t : R), LinalF L t -> uround p <= 1 / 128 ->
  forall (o d o' d' : vec (binary_float p e) 2),
    finite_pt d -> finite_pt o' -> finite_pt d' -> rnorm (vreal d) * rnorm (vreal d') <= bpow radix2 (e - 3) ->
    let r := @intersect_line2 S L (leps L) (@mkLine S 2 o d) (@mkLine S 2 o' d') in
    (forall q : vec (binary_float p e) 2, r = Some q -> finite_pt q ->
       exists T, near_hit p e (vreal o') (perp (vreal d')) (vreal o) (vreal d) (vreal q) T) /\
    (r = None -> Rabs (det2 (vreal d) (vreal d')) <= t + slope_bound p e (perp (vreal d')) (vreal d)).
Proof.
  intros p e Hp He f g h pi S L t HL Hu1 o d o' d' Fd Fo' Fd' HR r. pose proof (@u_pos p) as Hu. pose proof (@eta_pos p e) as Hh. change (@eta p e) with (uflow p e) in *.
  pose proof (rdist_self_le 2 (uround p) (vreal d) ltac:(lra)) as Hd. pose proof (rdist_self_le 2 (uround p) (vreal d') ltac:(lra)) as Hd'.
  pose proof (is_det_fin (detA d d') d d' (vreal d) (vreal d') Hu1 (is_det_1 d d') Fd Fd' Hd Hd' HR) as FD.
  pose proof (is_det_err (detA d d') d d' (vreal d) (vreal d') Hu1 (is_det_1 d d') FD Hd Hd') as ED.
  unfold r, intersect_line2. cbn [l_origin l_dir].
  change (@ssub S (@smul S (fst d) (fst (snd d'))) (@smul S (fst d') (fst (snd d)))) with (detA d d' (Hp := Hp) (He := He)).
  set (D := detA d d' (Hp := Hp) (He := He)) in *. change (@sabs S D) with (Babs D).
  destruct (isZero L (leps L) (Babs D)) eqn:Z; split.
  - intros q E. discriminate E.
  - intros _. apply (lf_zero_1 _ _ HL (Babs D)) in Z; [|now rewrite is_finite_Babs]. rewrite B2R_Babs, Rabs_Rabsolu in Z.
    set (x := det2 (vreal d) (vreal d')) in *. replace x with (B2R D - (B2R D - x)) by ring. unfold Rminus at 1. eapply Rle_trans; [apply Rabs_triang|]. rewrite Rabs_Ropp.
    unfold slope_bound. rewrite perp_norm. assert (0 <= uround p * (rnorm (vreal d) * rnorm (vreal d'))) by (repeat apply Rmult_le_pos; try apply rnorm_nonneg; lra). lra.
  - intros q E Fq. apply (f_equal (fun x => match x with Some y => y | None => q end)) in E. cbn beta iota in E. subst q.
    destruct (point_near f g h pi 2 o d (vreal d) _ Hu1 ltac:(lia) Hd Fq) as (FT & Fo & HP).
    exists (B2R (@Bdiv p e Hp He mode_NE (numT (@vsub S 2 o' o) d') D)). split; [exact HP|].
    exact (hit2 f g h pi o o' d d' (vreal d) (vreal d') Hu1 Hd Hd' Fo Fo' FD FT).
  - intros E. discriminate E.
Qed.
Print Assumptions C73_lines.

(** how the intersection of two segments is computed *)
Lemma segment2_unfold p e Hp He f g h pi (S := IEEE p e Hp He f g h pi) (L : Linal S) dbg (a b a' b' : vec (binary_float p e) 2) :
  let v := @vsub S 2 b a : vec (binary_float p e) 2 in let w := @vsub S 2 b' a' : vec (binary_float p e) 2 in let m := @vsub S 2 a' a : vec (binary_float p e) 2 in
  let D := detA v w : binary_float p e in
  let T := @Bdiv p e Hp He mode_NE (numT m w) D in let T' := @Bdiv p e Hp He mode_NE (numS v m) D in
  @intersect_segment2 S L dbg (leps L) (@mkSegment S 2 a b) (@mkSegment S 2 a' b') =
  if isZero L (leps L) D then Ok None
  else if isLess L (leps L) T' (B754_zero false : binary_float p e) || isGreater L (leps L) T' (@s1 S) || isLess L (leps L) T (B754_zero false : binary_float p e) || isGreater L (leps L) T (@s1 S) then Ok None
  else let* _ := geo_assert dbg (veq L (@vadd S 2 a (@vscale S 2 T v)) (@vadd S 2 a' (@vscale S 2 T' w))) in Ok (Some (@vadd S 2 a (@vscale S 2 T v))).
Proof. reflexivity. Qed.

(** the point reported for two segments is nearly on the first one and nearly on the
    line of the second one; if nothing overflows and they are not nearly parallel,
    it is nearly on both *)
Theorem C73_segments :
  forall (p e : Z) (Hp : Prec_gt_0 p) (He : Prec_lt_emax p e) f g h pi, let S := IEEE p e Hp He f g h pi in
  forall (L : Linal S) (t : R), LinalF L t -> uround p <= 1 / 128 ->
  forall (dbg : bool) (a b a' b' q : vec (binary_float p e) 2),
    finite_pt a -> finite_pt b -> finite_pt a' -> finite_pt b' -> finite_pt q ->
    let d := rsub (vreal b) (vreal a) in let d' := rsub (vreal b') (vreal a') in
    @intersect_segment2 S L dbg (leps L) (@mkSegment S 2 a b) (@mkSegment S 2 a' b') = Ok (Some q) ->
    (rnorm d <= bpow radix2 (e - 2) -> rnorm d' <= bpow radix2 (e - 2) -> rnorm d * rnorm d' <= bpow radix2 (e - 3) ->
       exists T, - t <= T <= 1 + t /\ near_hit p e (vreal a') (perp d') (vreal a) d (vreal q) T) /\
    (crossing_scene p e (vreal a) d (vreal a') d' ->
       exists T T', - t <= T <= 1 + t /\ - t <= T' <= 1 + t /\
         rdist (vreal q) (along (vreal a) d T) <= point_bound p e (vreal a) d T /\
         rdist (along (vreal a) d T) (along (vreal a') d' T') <= gap_bound p e (vreal a) d (vreal a') d' T T').
Proof.
  intros p e Hp He f g h pi S L t HL Hu1 dbg a b a' b' q Fa Fb Fa' Fb' Fq d d' Hr. pose proof (@u_pos p) as Hu.
  pose proof (segment2_unfold p e Hp He f g h pi L dbg a b a' b') as U. cbv zeta in U. fold S in U. rewrite U in Hr. clear U.
  set (v := @vsub S 2 b a : vec (binary_float p e) 2) in *. set (w := @vsub S 2 b' a' : vec (binary_float p e) 2) in *. set (m := @vsub S 2 a' a : vec (binary_float p e) 2) in *.
  set (D := detA v w : binary_float p e) in *. set (T := @Bdiv p e Hp He mode_NE (numT m w) D) in *. set (T' := @Bdiv p e Hp He mode_NE (numS v m) D) in *.
  pose proof (@one_spec p e Hp He) as [F1 E1]. change (ieee_pow p e Hp He 1 0) with (@s1 S) in F1, E1.
  destruct (isZero L (leps L) D) eqn:Z; [discriminate Hr|].
  destruct (isLess L (leps L) T' (B754_zero false : binary_float p e)) eqn:G1; [discriminate Hr|].
  destruct (isGreater L (leps L) T' (@s1 S)) eqn:G2; [discriminate Hr|].
  destruct (isLess L (leps L) T (B754_zero false : binary_float p e)) eqn:G3; [discriminate Hr|].
  destruct (isGreater L (leps L) T (@s1 S)) eqn:G4; [discriminate Hr|]. cbn [orb] in Hr.
  assert (Eq : q = @vadd S 2 a (@vscale S 2 T v)).
  { destruct (geo_assert dbg _) in Hr; try discriminate Hr. cbn in Hr. apply Ok_inj in Hr.
    apply (f_equal (fun x => match x with Some y => y | None => q end)) in Hr. symmetry. exact Hr. }
  assert (RT : forall X : binary_float p e, is_finite X = true -> isLess L (leps L) X (B754_zero false : binary_float p e) = false -> isGreater L (leps L) X (@s1 S) = false -> - t <= B2R X <= 1 + t).
  { intros X FX H1 H2. split.
    - destruct (Rle_or_lt (- t) (B2R X)) as [Q|Q]; [exact Q|]. exfalso.
      assert (K : isLess L (leps L) X (B754_zero false : binary_float p e) = true).
      { apply (lf_less_0 _ _ HL X (B754_zero false) FX eq_refl). change (B2R (B754_zero false : binary_float p e)) with 0. lra. }
      congruence.
    - destruct (Rle_or_lt (B2R X) (1 + t)) as [Q|Q]; [exact Q|]. exfalso.
      assert (K : isGreater L (leps L) X (@s1 S) = true) by (apply (lf_greater_0 _ _ HL X (@s1 S) FX F1); rewrite E1; lra). congruence. }
  assert (HPT : rdist (vreal v) d <= uround p * rnorm d -> is_finite T = true /\ rdist (vreal q) (along (vreal a) d (B2R T)) <= point_bound p e (vreal a) d (B2R T)).
  { intros Hv. rewrite Eq in Fq |- *. destruct (point_near f g h pi 2 a v d T Hu1 ltac:(lia) Hv Fq) as (FT & _ & HP). split; assumption. }
  split.
  - intros N1 N2 N12. assert (Hu2 : uround p <= 1 / 2) by lra.
    assert (Fv : finite_pt v) by (apply (sub_finite_near f g h pi 2 b a); [exact Hu2|exact Fb|exact Fa|exact N1]).
    assert (Fw : finite_pt w) by (apply (sub_finite_near f g h pi 2 b' a'); [exact Hu2|exact Fb'|exact Fa'|exact N2]).
    pose proof (sub_err f g h pi 2 b a Fb Fa Fv) as Hv. pose proof (sub_err f g h pi 2 b' a' Fb' Fa' Fw) as Hw. fold S in Hv, Hw. fold v d in Hv. fold w d' in Hw.
    change (rdist (vreal b) (vreal a)) with (rnorm d) in Hv. change (rdist (vreal b') (vreal a')) with (rnorm d') in Hw.
    pose proof (is_det_fin D v w d d' Hu1 (is_det_1 v w) Fv Fw Hv Hw N12) as FD. destruct (HPT Hv) as (FT & HP).
    exists (B2R T). split; [apply RT; assumption|]. split; [exact HP|]. exact (hit2 f g h pi a a' v w d d' Hu1 Hv Hw Fa Fa' FD FT).
  - intros HS. destruct (seg2_params f g h pi a b a' b' Hu1 Fa Fb Fa' Fb' HS) as (Hv & Hw & Fv & Fw & FD & ED & FT & FT' & H1 & H2).
    fold S in Hv, Hw, Fv, Fw, FD, ED, FT, FT', H1, H2. fold v in Hv, Fv, FD, ED, FT, FT', H1, H2. fold w in Hw, Fw, FD, ED, FT, FT', H1, H2. fold m in FT, FT', H1, H2. fold D in FD, ED, FT, FT', H1, H2. fold T in FT, H1. fold T' in FT', H2. fold d d' in Hv, Hw, ED, H1, H2.
    destruct (HPT Hv) as (_ & HP). exists (B2R T), (B2R T'). split; [apply RT; assumption|]. split; [apply RT; assumption|]. split; [exact HP|].
    apply gap; [|exact H1|exact H2]. destruct HS as (_ & _ & _ & _ & HD). intros Q. fold d d' in HD. rewrite Q, Rabs_R0 in HD.
    assert (0 <= slope_bound p e (perp d') d) by (eapply Rle_trans; [apply Rabs_pos|exact ED]). lra.
Qed.
Print Assumptions C73_segments.

(** segments that clearly cross are reported (without the debug assertion) *)
Theorem C73_segments_complete :
  forall (p e : Z) (Hp : Prec_gt_0 p) (He : Prec_lt_emax p e) f g h pi, let S := IEEE p e Hp He f g h pi in
  forall (L : Linal S) (t : R), LinalF L t -> uround p <= 1 / 128 ->
  forall (a b a' b' : vec (binary_float p e) 2) (T T' : R),
    finite_pt a -> finite_pt b -> finite_pt a' -> finite_pt b' ->
    let d := rsub (vreal b) (vreal a) in let d' := rsub (vreal b') (vreal a') in
    crossing_scene p e (vreal a) d (vreal a') d' ->
    let A := slope_bound p e (perp d') d in let D := Rabs (det2 d d') in
    t + A < D -> along (vreal a) d T = along (vreal a') d' T' ->
    plane_bound p e (vreal a') (perp d') (vreal a) d T <= Rmin T (1 - T) * (D - A) ->
    plane_bound p e (vreal a) (perp d) (vreal a') d' T' <= Rmin T' (1 - T') * (D - A) ->
    exists q, @intersect_segment2 S L false (leps L) (@mkSegment S 2 a b) (@mkSegment S 2 a' b') = Ok (Some q).
Proof.
  intros p e Hp He f g h pi S L t HL Hu1 a b a' b' x x' Fa Fb Fa' Fb' d d' HS A DD HD Hx Hx1 Hx2. pose proof (@u_pos p) as Hu. pose proof (lf_slack _ _ HL) as Ht0.
  pose proof (segment2_unfold p e Hp He f g h pi L false a b a' b') as U. cbv zeta in U. fold S in U. rewrite U. clear U.
  destruct (seg2_params f g h pi a b a' b' Hu1 Fa Fb Fa' Fb' HS) as (Hv & Hw & Fv & Fw & FD & ED & FT & FT' & H1 & H2). fold S in Hv, Hw, Fv, Fw, FD, ED, FT, FT', H1, H2.
  set (v := @vsub S 2 b a : vec (binary_float p e) 2) in *. set (w := @vsub S 2 b' a' : vec (binary_float p e) 2) in *. set (m := @vsub S 2 a' a : vec (binary_float p e) 2) in *.
  set (D := detA v w : binary_float p e) in *. set (T := @Bdiv p e Hp He mode_NE (numT m w) D) in *. set (T' := @Bdiv p e Hp He mode_NE (numS v m) D) in *.
  fold d d' in Hv, Hw, ED, H1, H2. fold A in ED.
  pose proof (@one_spec p e Hp He) as [F1 E1]. change (ieee_pow p e Hp He 1 0) with (@s1 S) in F1, E1.
  destruct (rdot_perp d d') as (P1 & P2).
  assert (O1 : on_plane (vreal a') (perp d') (along (vreal a) d x)).
  { rewrite Hx. unfold on_plane. rewrite det2_perp. clear. destruct (vreal a') as (o0 & o1 & []), d' as (e0 & e1 & []). unfold det2, along, rsub, rscale, radd. cbn. ring. }
  assert (O2 : on_plane (vreal a) (perp d) (along (vreal a') d' x')).
  { rewrite <- Hx. unfold on_plane. rewrite det2_perp. clear. destruct (vreal a) as (o0 & o1 & []), d as (e0 & e1 & []). unfold det2, along, rsub, rscale, radd. cbn. ring. }
  pose proof (near_exact 2 _ _ _ _ _ _ H1 O1) as K1. pose proof (near_exact 2 _ _ _ _ _ _ H2 O2) as K2.
  rewrite P1 in K1. rewrite P2, Rabs_Ropp, slope_bound_swap in K2. fold A DD in K1, K2.
  assert (HDA : 0 < DD - A) by lra.
  assert (B1 : 0 <= B2R T <= 1).
  { assert (K : Rabs (B2R T - x) <= Rmin x (1 - x)) by (apply Rmult_le_reg_r with (DD - A); lra).
    pose proof (Rmin_l x (1 - x)). pose proof (Rmin_r x (1 - x)). apply Rabs_le_inv in K. lra. }
  assert (B2 : 0 <= B2R T' <= 1).
  { assert (K : Rabs (B2R T' - x') <= Rmin x' (1 - x')) by (apply Rmult_le_reg_r with (DD - A); lra).
    pose proof (Rmin_l x' (1 - x')). pose proof (Rmin_r x' (1 - x')). apply Rabs_le_inv in K. lra. }
  assert (Z : isZero L (leps L) D = false).
  { destruct (isZero L (leps L) D) eqn:Z; [|reflexivity]. exfalso. apply (lf_zero_1 _ _ HL _ FD) in Z.
    assert (Rabs (det2 d d') <= Rabs (B2R D) + Rabs (B2R D - det2 d d')); [|unfold DD in HD; lra].
    replace (det2 d d') with (B2R D - (B2R D - det2 d d')) at 1 by ring. unfold Rminus at 1. eapply Rle_trans; [apply Rabs_triang|]. rewrite Rabs_Ropp. lra. }
  assert (RT : forall X : binary_float p e, is_finite X = true -> 0 <= B2R X <= 1 -> isLess L (leps L) X (B754_zero false : binary_float p e) = false /\ isGreater L (leps L) X (@s1 S) = false).
  { intros X FX HX. split.
    - destruct (isLess L (leps L) X (B754_zero false : binary_float p e)) eqn:Q; [|reflexivity]. apply (lf_less_1 _ _ HL X (B754_zero false) FX eq_refl) in Q.
      change (B2R (B754_zero false : binary_float p e)) with 0 in Q. lra.
    - destruct (isGreater L (leps L) X (@s1 S)) eqn:Q; [|reflexivity]. apply (lf_greater_1 _ _ HL X (@s1 S) FX F1) in Q. rewrite E1 in Q. lra. }
  destruct (RT T FT B1) as (G1 & G2). destruct (RT T' FT' B2) as (G3 & G4). rewrite Z, G1, G2, G3, G4. cbn. eexists. reflexivity.
Qed.
Print Assumptions C73_segments_complete.

(** the debug assertion holds if equality of vectors tolerates the errors; [t <= 1] is
    the tolerance of the comparisons *)
Theorem C73_segments_no_abort :
  forall (p e : Z) (Hp : Prec_gt_0 p) (He : Prec_lt_emax p e) f g h pi, let S := IEEE p e Hp He f g h pi in
  forall (L : Linal S) (t w : R), LinalF L t -> t <= 1 -> uround p <= 1 / 128 ->
    (forall x y : vec (binary_float p e) 2, finite_pt x -> finite_pt y -> rdist (vreal x) (vreal y) <= w -> veq L x y = true) ->
  forall (dbg : bool) (a b a' b' : vec (binary_float p e) 2),
    finite_pt a -> finite_pt b -> finite_pt a' -> finite_pt b' ->
    let d := rsub (vreal b) (vreal a) in let d' := rsub (vreal b') (vreal a') in
    crossing_scene p e (vreal a) d (vreal a') d' ->
    rnorm (vreal a) <= bpow radix2 (e - 3) -> rnorm (vreal a') <= bpow radix2 (e - 3) ->
    rnorm d <= bpow radix2 (e - 5) -> rnorm d' <= bpow radix2 (e - 5) ->
    point_bound p e (vreal a) d (1 + t) + gap_bound p e (vreal a) d (vreal a') d' (1 + t) (1 + t) + point_bound p e (vreal a') d' (1 + t) <= w ->
    exists r, @intersect_segment2 S L dbg (leps L) (@mkSegment S 2 a b) (@mkSegment S 2 a' b') = Ok r.
Proof.
  intros p e Hp He f g h pi S L t wb HL Ht1 Hu1 Hveq dbg a b a' b' Fa Fb Fa' Fb' d d' HS B1 B2 B3 B4 HW. pose proof (@u_pos p) as Hu. pose proof (lf_slack _ _ HL) as Ht0.
  pose proof (segment2_unfold p e Hp He f g h pi L dbg a b a' b') as U. cbv zeta in U. fold S in U. rewrite U. clear U.
  destruct (seg2_params f g h pi a b a' b' Hu1 Fa Fb Fa' Fb' HS) as (Hv & Hw & Fv & Fw & FD & ED & FT & FT' & H1 & H2). fold S in Hv, Hw, Fv, Fw, FD, ED, FT, FT', H1, H2.
  set (v := @vsub S 2 b a : vec (binary_float p e) 2) in *. set (w := @vsub S 2 b' a' : vec (binary_float p e) 2) in *. set (m := @vsub S 2 a' a : vec (binary_float p e) 2) in *.
  set (D := detA v w : binary_float p e) in *. set (T := @Bdiv p e Hp He mode_NE (numT m w) D) in *. set (T' := @Bdiv p e Hp He mode_NE (numS v m) D) in *.
  fold d d' in Hv, Hw, ED, H1, H2.
  pose proof (@one_spec p e Hp He) as [F1 E1]. change (ieee_pow p e Hp He 1 0) with (@s1 S) in F1, E1.
  destruct (isZero L (leps L) D) eqn:Z; [eexists; reflexivity|].
  destruct (isLess L (leps L) T' (B754_zero false : binary_float p e)) eqn:G1; [eexists; reflexivity|].
  destruct (isGreater L (leps L) T' (@s1 S)) eqn:G2; [eexists; reflexivity|].
  destruct (isLess L (leps L) T (B754_zero false : binary_float p e)) eqn:G3; [eexists; reflexivity|].
  destruct (isGreater L (leps L) T (@s1 S)) eqn:G4; [eexists; reflexivity|]. cbn [orb].
  assert (RT : forall X : binary_float p e, is_finite X = true -> isLess L (leps L) X (B754_zero false : binary_float p e) = false -> isGreater L (leps L) X (@s1 S) = false -> Rabs (B2R X) <= 1 + t).
  { intros X FX Q1 Q2. apply Rabs_le. split.
    - destruct (Rle_or_lt (- t) (B2R X)) as [Q|Q]; [lra|]. exfalso.
      assert (K : isLess L (leps L) X (B754_zero false : binary_float p e) = true).
      { apply (lf_less_0 _ _ HL X (B754_zero false) FX eq_refl). change (B2R (B754_zero false : binary_float p e)) with 0. lra. }
      congruence.
    - destruct (Rle_or_lt (B2R X) (1 + t)) as [Q|Q]; [exact Q|]. exfalso.
      assert (K : isGreater L (leps L) X (@s1 S) = true) by (apply (lf_greater_0 _ _ HL X (@s1 S) FX F1); rewrite E1; lra). congruence. }
  pose proof (RT T FT G3 G4) as RT1. pose proof (RT T' FT' G1 G2) as RT2.
  assert (E5 : bpow radix2 (e - 3) = 4 * bpow radix2 (e - 5)) by (replace (e - 3)%Z with (2 + (e - 5))%Z by lia; rewrite bpow_plus; reflexivity).
  assert (FP : forall (o s : vec (binary_float p e) 2) (ds : vec R 2) (X : binary_float p e), finite_pt o -> finite_pt s -> is_finite X = true -> Rabs (B2R X) <= 1 + t ->
    rnorm (vreal o) <= bpow radix2 (e - 3) -> rdist (vreal s) ds <= uround p * rnorm ds -> rnorm ds <= bpow radix2 (e - 5) ->
    finite_pt (@vadd S 2 o (@vscale S 2 X s) : vec (binary_float p e) 2)).
  { intros o s ds X Fo Fs FX HX Ho Hs Hds. apply (point_finite f g h pi 2 o s X); try assumption.
    assert (Ns : rnorm (vreal s) <= (1 + uround p) * rnorm ds).
    { replace (vreal s) with (radd ds (rsub (vreal s) ds)) by apply radd_rsub. eapply Rle_trans; [apply rnorm_triangle|]. unfold rdist in Hs. lra. }
    apply Rle_trans with (2 * (2 * bpow radix2 (e - 5))); [|lra]. apply Rmult_le_compat; [apply Rabs_pos|apply rnorm_nonneg|lra|].
    eapply Rle_trans; [exact Ns|]. apply Rmult_le_compat; [lra|apply rnorm_nonneg|lra|exact Hds]. }
  pose proof (FP a v d T Fa Fv FT RT1 B1 Hv B3) as FQ1. pose proof (FP a' w d' T' Fa' Fw FT' RT2 B2 Hw B4) as FQ2.
  destruct (point_near f g h pi 2 a v d T Hu1 ltac:(lia) Hv FQ1) as (_ & _ & P1). destruct (point_near f g h pi 2 a' w d' T' Hu1 ltac:(lia) Hw FQ2) as (_ & _ & P2). fold S in P1, P2.
  assert (D0 : det2 d d' <> 0).
  { destruct HS as (_ & _ & _ & _ & HD). fold d d' in HD. intros Q. rewrite Q, Rabs_R0 in HD.
    assert (0 <= slope_bound p e (perp d') d) by (eapply Rle_trans; [apply Rabs_pos|exact ED]). lra. }
  pose proof (gap (vreal a) d (vreal a') d' (B2R T) (B2R T') D0 H1 H2) as G. pose proof (gap_bound_mono (p := p) (e := e) (vreal a) d (vreal a') d' (B2R T) (B2R T') (1 + t) D0 RT1 RT2) as GM.
  pose proof (point_bound_mono (p := p) (e := e) 2 (vreal a) d (B2R T) (1 + t) RT1) as PM1. pose proof (point_bound_mono (p := p) (e := e) 2 (vreal a') d' (B2R T') (1 + t) RT2) as PM2.
  assert (V : veq L (@vadd S 2 a (@vscale S 2 T v)) (@vadd S 2 a' (@vscale S 2 T' w)) = true).
  { apply Hveq; [exact FQ1|exact FQ2|]. eapply Rle_trans; [apply (rdist_triangle _ (along (vreal a) d (B2R T)))|].
    eapply Rle_trans; [apply Rplus_le_compat_l, (rdist_triangle _ (along (vreal a') d' (B2R T')))|]. rewrite (rdist_sym (along (vreal a') d' (B2R T'))). lra. }
  rewrite V. unfold geo_assert. destruct dbg; eexists; reflexivity.
Qed.
Print Assumptions C73_segments_no_abort.

(** ** The segments from (0, 0) to (1, 2) and from (1, 0) to (0, 1), times [s] *)
Section Scene.
Context (s : b64) (s2 : b64) (Fs : is_finite s = true) (Fs2 : is_finite s2 = true) (Es : B2R s2 = 2 * B2R s).
Let z := b64_ofZ 0.
Definition scene_a : vec b64 2 := mk2 z z.
Definition scene_b : vec b64 2 := mk2 s s2.
Definition scene_a' : vec b64 2 := mk2 s z.
Definition scene_b' : vec b64 2 := mk2 z s.
Lemma scene_finite : finite_pt scene_a /\ finite_pt scene_b /\ finite_pt scene_a' /\ finite_pt scene_b'.
Proof.
  destruct (b64_small 0 eq_refl) as (F0 & _). fold z in F0.
  split; [intros [|[|i]] Hi; try lia; assumption|]. split; [intros [|[|i]] Hi; try lia; assumption|]. split; intros [|[|i]] Hi; try lia; assumption.
Qed.
Lemma scene_real : vreal scene_a = mk2 0 0 /\ vreal scene_a' = mk2 (B2R s) 0 /\
  rsub (vreal scene_b) (vreal scene_a) = mk2 (B2R s) (2 * B2R s) /\ rsub (vreal scene_b') (vreal scene_a') = mk2 (- B2R s) (B2R s).
Proof.
  destruct (b64_small 0 eq_refl) as (_ & E0). fold z in E0.
  change (vreal scene_a) with (mk2 (B2R z) (B2R z)). change (vreal scene_a') with (mk2 (B2R s) (B2R z)).
  change (vreal scene_b) with (mk2 (B2R s) (B2R s2)). change (vreal scene_b') with (mk2 (B2R z) (B2R s)). rewrite E0, Es.
  split; [reflexivity|]. split; [reflexivity|]. unfold rsub, mk2. cbn [vmap2 fst snd]. split; repeat (apply f_equal2; [ring|]); reflexivity.
Qed.
(** they cross at parameters 1/3 and 2/3 *)
Lemma scene_cross : along (vreal scene_a) (rsub (vreal scene_b) (vreal scene_a)) (1 / 3) = along (vreal scene_a') (rsub (vreal scene_b') (vreal scene_a')) (2 / 3).
Proof.
  destruct scene_real as (E1 & E2 & E3 & E4). rewrite E3, E4, E1, E2. unfold along, radd, rscale, mk2. cbn [vmap vmap2 fst snd].
  repeat (apply f_equal2; [field|]). reflexivity.
Qed.
End Scene.

(** whether a debug assertion fails *)
Definition is_trap {A} (r : res A) : bool := match r with Trap => true | _ => false end.

(** Without a tolerance for vectors the assertion fails for these segments, and with
    one it fails for them scaled by [2^40]: the segments cross in their interior, but a
    debug build aborts. *)
Theorem C73_abort_refuted :
  forall f g h pi, let S := B64 f g h pi in
  exists (a b a' b' : vec b64 2), finite_pt a /\ finite_pt b /\ finite_pt a' /\ finite_pt b' /\
  (exists (c c' k k' : vec b64 2), finite_pt c /\ finite_pt c' /\ finite_pt k /\ finite_pt k' /\
    along (vreal a) (rsub (vreal b) (vreal a)) (1 / 3) = along (vreal a') (rsub (vreal b') (vreal a')) (2 / 3) /\
    along (vreal c) (rsub (vreal c') (vreal c)) (1 / 3) = along (vreal k) (rsub (vreal k') (vreal k)) (2 / 3) /\
    (forall L : Linal S, L = raw_linal S (b64_ofZ 0) \/ L = tol_linal S (b64_pow 1 (-30)) ->
       is_trap (@intersect_segment2 S L true (leps L) (@mkSegment S 2 a b) (@mkSegment S 2 a' b')) = true) /\
    let L := tolvec_linal S (b64_pow 1 (-30)) in
    is_trap (@intersect_segment2 S L true (leps L) (@mkSegment S 2 c c') (@mkSegment S 2 k k')) = true).
Proof.
  intros f g h pi S. destruct (b64_small 1 eq_refl) as (F1 & E1), (b64_small 2 eq_refl) as (F2 & E2).
  set (s := b64_pow 1 40). set (s2 := b64_pow 1 41).
  destruct (@pow_spec 53 1024 prec53 prec_emax64 1 40 eq_refl ltac:(lia) ltac:(lia)) as [Fs Es]. destruct (@pow_spec 53 1024 prec53 prec_emax64 1 41 eq_refl ltac:(lia) ltac:(lia)) as [Fs2 Es2].
  change (ieee_pow 53 1024 prec53 prec_emax64 1 40) with s in Fs, Es. change (ieee_pow 53 1024 prec53 prec_emax64 1 41) with s2 in Fs2, Es2.
  assert (E : B2R s2 = 2 * B2R s). { rewrite Es, Es2. change 41%Z with (1 + 40)%Z. rewrite bpow_plus. change (bpow radix2 1) with 2. ring. }
  assert (E' : B2R (b64_ofZ 2) = 2 * B2R (b64_ofZ 1)) by (rewrite E1, E2; ring).
  destruct (scene_finite (b64_ofZ 1) (b64_ofZ 2) F1 F2) as (A1 & A2 & A3 & A4). destruct (scene_finite s s2 Fs Fs2) as (A5 & A6 & A7 & A8).
  exists scene_a, (scene_b (b64_ofZ 1) (b64_ofZ 2)), (scene_a' (b64_ofZ 1)), (scene_b' (b64_ofZ 1)).
  split; [exact A1|]. split; [exact A2|]. split; [exact A3|]. split; [exact A4|].
  exists scene_a, (scene_b s s2), (scene_a' s), (scene_b' s).
  split; [exact A5|]. split; [exact A6|]. split; [exact A7|]. split; [exact A8|].
  split; [exact (scene_cross _ _ E')|]. split; [exact (scene_cross _ _ E)|]. split.
  - intros L [-> | ->]; vm_compute; reflexivity.
  - vm_compute. reflexivity.
Qed.
Print Assumptions C73_abort_refuted.

(** ** non-vacuity *)
Section Tolvec.
Context {p e : Z} {Hp : Prec_gt_0 p} {He : Prec_lt_emax p e}.
Notation bf := (binary_float p e).
Notation zero := (B754_zero false : bf).
Context (f g h : bf -> bf) (pi : bf).
Let S := IEEE p e Hp He f g h pi.
Lemma tolvec_linal_F (x : bf) : is_finite x = true -> 0 <= B2R x -> LinalF (tolvec_linal S x) (succ radix2 (FLT_exp (3 - e - p) p) (B2R x)).
Proof. intros Fx Hx. destruct (tol_linal_F f g h pi x Fx Hx). constructor; assumption. Qed.
(** equality of vectors up to [x] tolerates distances up to [x] *)
Lemma tolvec_tolerates (x : bf) : is_finite x = true -> forall (n : nat) (v w : vec bf n), finite_pt v -> finite_pt w ->
  rdist (vreal v) (vreal w) <= B2R x -> veq (tolvec_linal S x) v w = true.
Proof.
  intros Fx n v w Fv Fw H. change (vall2 (fun a b : bf => Bleb (Babs (@Bminus p e Hp He mode_NE a b)) x) v w = true).
  apply (vall2_true zero zero). intros i Hi. cbv beta. set (a := vnth zero i v). set (b := vnth zero i w).
  assert (Hz : Rabs (B2R a - B2R b) <= B2R x).
  { eapply Rle_trans; [|exact H]. pose proof (rdot_ge n (rsub (vreal v) (vreal w)) i Hi) as Q. rewrite <- rnorm_sq in Q.
    unfold rsub in Q at 1 2. rewrite !(vnth_vmap2 0 0 0), !vnth_real in Q by exact Hi. apply abs_le_of_sq; [apply rnorm_nonneg|exact Q]. }
  assert (Hr : Rabs (rndf p e (B2R a - B2R b)) <= B2R x).
  { rewrite <- rnd_abs, <- (rnd_id (p := p) (e := e) (B2R x)) by apply B2R_fmt. apply rnd_le. exact Hz. }
  destruct (sub_ok a b (Fv i Hi) (Fw i Hi)) as (F & E).
  { eapply Rle_lt_trans; [exact Hr|]. eapply Rle_lt_trans; [apply Rle_abs|apply abs_B2R_lt_emax]. }
  rewrite Bleb_correct by (try rewrite is_finite_Babs; assumption). rewrite B2R_Babs, E. apply Rle_bool_true. exact Hr.
Qed.
End Tolvec.

(** a norm is at most the sum of the absolute values *)
Lemma norm2_le x y : rnorm (mk2 x y : vec R 2) <= Rabs x + Rabs y.
Proof.
  unfold rnorm, rdot, mk2. cbn. pose proof (Rabs_pos x) as X. pose proof (Rabs_pos y) as Y. rewrite <- (sqrt_square (Rabs x + Rabs y)) by lra. apply sqrt_le_1_alt.
  rewrite <- (Rabs_mult_self x), <- (Rabs_mult_self y). nra.
Qed.
Lemma plane_bound_le p e (po nrm o d : vec R 2) T : 0 < uround p -> 0 < uflow p e -> rnorm nrm <= 3 -> rnorm d <= 3 -> rdist po o <= 3 -> Rabs T <= 2 ->
  plane_bound p e po nrm o d T <= 189 * uround p + 40 * uflow p e.
Proof.
  intros Hu Hh H1 H2 H3 H4. unfold plane_bound. pose proof (rnorm_nonneg nrm). pose proof (rnorm_nonneg d). assert (0 <= rdist po o) by apply rnorm_nonneg. pose proof (Rabs_pos T).
  assert (K1 : rnorm d * rnorm nrm <= 3 * 3) by (apply Rmult_le_compat; lra). assert (K2 : Rabs T * rnorm d <= 2 * 3) by (apply Rmult_le_compat; lra).
  assert (K3 : rnorm nrm * (Rabs T * rnorm d + rdist po o) <= 3 * 9) by (apply Rmult_le_compat; try lra; assert (0 <= Rabs T * rnorm d) by (apply Rmult_le_pos; lra); lra).
  assert (K4 : uround p * (rnorm nrm * (Rabs T * rnorm d + rdist po o)) <= uround p * (3 * 9)) by (apply Rmult_le_compat_l; lra).
  assert (K5 : uflow p e * (4 * Rabs T + 3 * (rnorm d * rnorm nrm) + 5) <= uflow p e * (4 * 2 + 3 * (3 * 3) + 5)) by (apply Rmult_le_compat_l; lra). lra.
Qed.

(** doubles with the tolerance [2^-30]: the segments from (0, 0) to (1, 2) and from
    (1, 0) to (0, 1) meet all hypotheses *)
Example C73_example : forall f g h pi, let S := B64 f g h pi in let x := b64_pow 1 (-30) in let L := tolvec_linal S x in
  exists t, let w := B2R x in
  let a := scene_a in let b := scene_b (b64_ofZ 1) (b64_ofZ 2) in let a' := scene_a' (b64_ofZ 1) in let b' := scene_b' (b64_ofZ 1) in
  let d := rsub (vreal b) (vreal a) in let d' := rsub (vreal b') (vreal a') in
  let A := slope_bound 53 1024 (perp d') d in let D := Rabs (det2 d d') in
  LinalF L t /\ t <= 1 /\ uround 53 <= 1 / 128 /\
  (forall v u : vec b64 2, finite_pt v -> finite_pt u -> rdist (vreal v) (vreal u) <= w -> veq L v u = true) /\
  finite_pt a /\ finite_pt b /\ finite_pt a' /\ finite_pt b' /\ crossing_scene 53 1024 (vreal a) d (vreal a') d' /\
  rnorm (vreal a) <= bpow radix2 (1024 - 3) /\ rnorm (vreal a') <= bpow radix2 (1024 - 3) /\
  rnorm d <= bpow radix2 (1024 - 5) /\ rnorm d' <= bpow radix2 (1024 - 5) /\
  point_bound 53 1024 (vreal a) d (1 + t) + gap_bound 53 1024 (vreal a) d (vreal a') d' (1 + t) (1 + t) + point_bound 53 1024 (vreal a') d' (1 + t) <= w /\
  t + A < D /\ along (vreal a) d (1 / 3) = along (vreal a') d' (2 / 3) /\
  plane_bound 53 1024 (vreal a') (perp d') (vreal a) d (1 / 3) <= Rmin (1 / 3) (1 - 1 / 3) * (D - A) /\
  plane_bound 53 1024 (vreal a) (perp d) (vreal a') d' (2 / 3) <= Rmin (2 / 3) (1 - 2 / 3) * (D - A).
Proof.
  intros f g h pi S x L.
  destruct (b64_small 1 eq_refl) as (F1 & E1), (b64_small 2 eq_refl) as (F2 & E2).
  destruct (@pow_spec 53 1024 prec53 prec_emax64 1 (-30) eq_refl ltac:(lia) ltac:(lia)) as [Fx Ex]. change (ieee_pow 53 1024 prec53 prec_emax64 1 (-30)) with x in Fx, Ex.
  rewrite Rmult_1_l in Ex. pose proof (bpow_gt_0 radix2 (-30)) as X0.
  exists (succ radix2 (FLT_exp (3 - 1024 - 53) 53) (B2R x)). set (t := succ radix2 (FLT_exp (3 - 1024 - 53) 53) (B2R x)).
  intros w a b a' b' d d' A D.
  assert (Ht : 0 <= t <= 1 / 4).
  { split.
    - unfold t. apply Rle_trans with (B2R x); [rewrite Ex; lra|]. apply succ_ge_id.
    - unfold t. apply Rle_trans with (bpow radix2 (-2)); [|cbn; lra]. apply succ_le_lt; [apply FLT_exp_valid; reflexivity|apply generic_format_B2R|apply generic_format_bpow; unfold FLT_exp; lia|].
      rewrite Ex. apply bpow_lt. lia. }
  assert (E' : B2R (b64_ofZ 2) = 2 * B2R (b64_ofZ 1)) by (rewrite E1, E2; ring).
  destruct (scene_finite (b64_ofZ 1) (b64_ofZ 2) F1 F2) as (A1 & A2 & A3 & A4).
  destruct (scene_real (b64_ofZ 1) (b64_ofZ 2) E') as (R1 & R2 & R3 & R4). fold a b in R3. fold a' b' in R4. fold d in R3. fold d' in R4. fold a in R1. fold a' in R2. rewrite E1 in R2, R3, R4.
  assert (Hu : 0 < uround 53 <= 1 / 4096 * bpow radix2 (-30)).
  { split; [apply bpow_gt_0|]. replace (1 / 4096) with (bpow radix2 (-12)) by (cbn; lra). rewrite <- bpow_plus. apply bpow_le. lia. }
  assert (Hh : 0 < uflow 53 1024 <= 1 / 4096 * bpow radix2 (-30)).
  { split; [apply bpow_gt_0|]. replace (1 / 4096) with (bpow radix2 (-12)) by (cbn; lra). rewrite <- bpow_plus. apply bpow_le. lia. }
  assert (HX : bpow radix2 (-30) <= 1 / 4096) by (apply Rle_trans with (bpow radix2 (-12)); [apply bpow_le; lia|cbn; lra]).
  assert (HB : 64 <= bpow radix2 (1024 - 5)) by (change 64 with (bpow radix2 6); apply bpow_le; lia).
  assert (HB3 : bpow radix2 (1024 - 5) <= bpow radix2 (1024 - 3)) by (apply bpow_le; lia). assert (HB2 : bpow radix2 (1024 - 3) <= bpow radix2 (1024 - 2)) by (apply bpow_le; lia).
  assert (Nd : rnorm d <= 3) by (rewrite R3; eapply Rle_trans; [apply norm2_le|]; rewrite !Rabs_pos_eq; lra).
  assert (Nd' : rnorm d' <= 3) by (rewrite R4; eapply Rle_trans; [apply norm2_le|]; rewrite Rabs_Ropp, !Rabs_pos_eq; lra).
  assert (Na : rnorm (vreal a) <= 3) by (rewrite R1; eapply Rle_trans; [apply norm2_le|]; rewrite !Rabs_R0; lra).
  assert (Na' : rnorm (vreal a') <= 3) by (rewrite R2; eapply Rle_trans; [apply norm2_le|]; rewrite Rabs_R0, Rabs_pos_eq; lra).
  assert (NM : rdist (vreal a') (vreal a) <= 3).
  { unfold rdist. assert (E : rsub (vreal a') (vreal a) = mk2 1 0) by (rewrite R1, R2; unfold rsub, mk2; cbn [vmap2 fst snd]; repeat (apply f_equal2; [ring|]); reflexivity).
    rewrite E. eapply Rle_trans; [apply norm2_le|]. rewrite Rabs_R0, Rabs_pos_eq; lra. }
  assert (NM' : rdist (vreal a) (vreal a') <= 3) by (rewrite rdist_sym; exact NM).
  assert (DD : det2 d d' = 3) by (rewrite R3, R4; unfold det2, mk2; cbn; ring).
  assert (ED : D = 3) by (unfold D; rewrite DD; apply Rabs_pos_eq; lra).
  pose proof (rnorm_nonneg d) as d0. pose proof (rnorm_nonneg d') as d0'. assert (m0 : 0 <= rdist (vreal a') (vreal a)) by apply rnorm_nonneg.
  assert (NN : rnorm d * rnorm d' <= 3 * 3) by (apply Rmult_le_compat; lra). assert (NN0 : 0 <= rnorm d * rnorm d') by (apply Rmult_le_pos; lra).
  assert (NMd : rdist (vreal a') (vreal a) * rnorm d <= 3 * 3) by (apply Rmult_le_compat; lra).
  assert (NMd' : rdist (vreal a') (vreal a) * rnorm d' <= 3 * 3) by (apply Rmult_le_compat; lra).
  assert (HA : 0 <= A <= 1 / 64).
  { unfold A, slope_bound. rewrite perp_norm. assert (uround 53 * (rnorm d * rnorm d') <= uround 53 * (3 * 3)) by (apply Rmult_le_compat_l; lra).
    assert (0 <= uround 53 * (rnorm d * rnorm d')) by (apply Rmult_le_pos; lra). lra. }
  assert (PB : forall T, Rabs T <= 2 -> plane_bound 53 1024 (vreal a') (perp d') (vreal a) d T <= 189 * uround 53 + 40 * uflow 53 1024) by (intros T HT; apply plane_bound_le; try rewrite perp_norm; lra).
  assert (PB' : forall T, Rabs T <= 2 -> plane_bound 53 1024 (vreal a) (perp d) (vreal a') d' T <= 189 * uround 53 + 40 * uflow 53 1024) by (intros T HT; apply plane_bound_le; try rewrite perp_norm; lra).
  assert (QB : forall o v, rnorm o <= 3 -> 0 <= rnorm v <= 3 -> point_bound 53 1024 (o : vec R 2) v (1 + t) <= 33 * uround 53 + 6 * uflow 53 1024).
  { intros o v Ho Hv. unfold point_bound. apply Rplus_le_compat_r. rewrite Rabs_pos_eq by lra.
    assert ((1 + t) * rnorm v <= 2 * 3) by (apply Rmult_le_compat; lra). rewrite (Rmult_comm 33). apply Rmult_le_compat_l; lra. }
  destruct (rdot_perp d d') as (P1 & P2). rewrite DD in P1, P2.
  split; [apply (tolvec_linal_F f g h pi x Fx); rewrite Ex; lra|]. split; [lra|]. split; [lra|]. split; [exact (tolvec_tolerates f g h pi x Fx 2)|].
  split; [exact A1|]. split; [exact A2|]. split; [exact A3|]. split; [exact A4|]. split.
  - unfold crossing_scene, roomy. rewrite !perp_norm, P1, P2, Rabs_Ropp. fold D A. rewrite (Rabs_pos_eq 3), ED by lra. rewrite (rdist_sym (vreal a) (vreal a')), (Rmult_comm (rnorm d') (rnorm d)).
    repeat split; lra.
  - split; [lra|]. split; [lra|]. split; [lra|]. split; [lra|]. split.
    + pose proof (QB (vreal a) d Na ltac:(lra)) as Q1. pose proof (QB (vreal a') d' Na' ltac:(lra)) as Q2.
      assert (Q3 : gap_bound 53 1024 (vreal a) d (vreal a') d' (1 + t) (1 + t) <= 378 * uround 53 + 80 * uflow 53 1024).
      { unfold gap_bound. fold D. rewrite ED. pose proof (PB (1 + t) ltac:(rewrite Rabs_pos_eq; lra)) as B1. pose proof (PB' (1 + t) ltac:(rewrite Rabs_pos_eq; lra)) as B2.
        assert (K1 : rnorm d * plane_bound 53 1024 (vreal a') (perp d') (vreal a) d (1 + t) <= 3 * (189 * uround 53 + 40 * uflow 53 1024)).
        { eapply Rle_trans; [apply Rmult_le_compat_l; [exact d0|exact B1]|]. apply Rmult_le_compat_r; lra. }
        assert (K2 : rnorm d' * plane_bound 53 1024 (vreal a) (perp d) (vreal a') d' (1 + t) <= 3 * (189 * uround 53 + 40 * uflow 53 1024)).
        { eapply Rle_trans; [apply Rmult_le_compat_l; [exact d0'|exact B2]|]. apply Rmult_le_compat_r; lra. }
        lra. }
      unfold w. rewrite Ex. lra.
    + split; [rewrite ED; lra|]. split; [exact (scene_cross _ _ E')|].
      rewrite ED. split.
      * pose proof (PB (1 / 3) ltac:(rewrite Rabs_pos_eq; lra)). rewrite Rmin_left by lra. lra.
      * pose proof (PB' (2 / 3) ltac:(rewrite Rabs_pos_eq; lra)). rewrite Rmin_right by lra. lra.
Qed.
