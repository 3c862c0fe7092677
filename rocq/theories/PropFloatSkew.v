(** * Property theorems: closest points of lines in space in floating point (C75) *)

From Coq Require Import List Arith Bool Lia Reals Lra ZArith.
From Flocq Require Import Core BinarySingleNaN.
From Verif Require Import Scalar Linal Result SpecReal VecR VecLemmas SpecIEEE SpecFloatErr SpecFloatPlane SpecFloatSkew ModelShapes ModelDistance ModelIntersect
  ProofRound ProofIEEE ProofBoxIEEE ProofFloatErr ProofFloatNorm ProofFloatDist ProofFloatTransform ProofFloatPlane ProofFloatSphere ProofFloatSkew
  PropFloatTess PropFloatPlane PropFloatCross.
Local Open Scope R_scope.

Section SG.
Context {p e : Z} {Hp : Prec_gt_0 p} {He : Prec_lt_emax p e}.
Notation bf := (binary_float p e).
Notation u := (uround p).
Notation eta := (uflow p e).
Notation zero := (B754_zero false : bf).
Context (fc fs fa : bf -> bf) (fpi : bf).
Let S := IEEE p e Hp He fc fs fa fpi.
Notation fadd := (@Bplus p e Hp He mode_NE).
Notation fsub := (@Bminus p e Hp He mode_NE).
Notation fmul := (@Bmult p e Hp He mode_NE).
Notation fdiv := (@Bdiv p e Hp He mode_NE).
Notation fsqrt := (@Bsqrt p e Hp He mode_NE).

(** ** The length of a vector, known to be finite *)
Lemma length_fin (v : vec bf 3) : u <= 1 / 1024 -> fin (@vlength S 3 v) ->
  finite_pt v /\ 0 <= B2R (@vlength S 3 v : bf) /\ rnorm (vreal v) <= (1 + 5 * u) * B2R (@vlength S 3 v : bf) + 2 * sqrt eta.
Proof.
  intros Hu1 F. pose proof (@u_pos p) as Hu. pose proof (@eta_pos p e) as Hh. change (@ProofFloatErr.eta p e) with eta in Hh. set (D := @dot S 3 v v : bf) in *. change (@vlength S 3 v) with (fsqrt D) in *.
  assert (FD : fin D) by (destruct D as [|[]| |[] ? ? ?]; try reflexivity; discriminate F).
  assert (D0 : 0 <= B2R D). { destruct D as [|[]| |[] m x Hx]; try discriminate F; try (cbn; lra). apply F2R_ge_0. cbn. lia. }
  destruct (dot_fin fc fs fa fpi 3 v v FD) as (Fv & _). split; [exact Fv|].
  pose proof (dot3_err fc fs fa fpi v v ltac:(lra) FD) as E. change (@ProofFloatErr.eta p e) with eta in E. fold S in E. change (@dot S 3 v v) with D in E.
  set (N := rnorm (vreal v)) in *. assert (N0 : 0 <= N) by apply rnorm_nonneg. rewrite <- (rnorm_sq (vreal v)) in E. fold N in E.
  assert (L : 0 <= B2R (fsqrt D) /\ sqrt (B2R D) * (1 - u) <= B2R (fsqrt D)).
  { destruct D0 as [D0|D0].
    - destruct (sqrt_n D 1 ltac:(lra) FD D0) as (_ & P & Q). rewrite !Rmult_1_r in Q. unfold Rdiv in Q. rewrite Rinv_1, !Rmult_1_r in Q. split; [exact P|]. apply Rabs_le_inv in Q. lra.
    - destruct D as [s|[]| |[] m x Hx]; try discriminate F; [cbn; rewrite sqrt_0; lra|]. exfalso. cbn in D0. assert (0 < F2R (Float radix2 (Z.pos m) x)) by (apply F2R_gt_0; cbn; lia). unfold F2R in *. cbn in *. lra. }
  destruct L as (l0 & L). split; [exact l0|]. set (l := B2R (fsqrt D)) in *. set (sd := sqrt (B2R D)) in *. set (h := sqrt eta).
  assert (sd0 : 0 <= sd) by apply sqrt_pos. assert (h0 : 0 <= h) by apply sqrt_pos. assert (sd2 : sd * sd = B2R D) by (apply sqrt_sqrt; exact D0). assert (h2 : h * h = eta) by (apply sqrt_sqrt; lra).
  assert (NN : N * N * (1 - 42 / 10 * u) <= sd * sd + 32 / 10 * (h * h)) by (rewrite sd2, h2; apply Rabs_le_inv in E; lra).
  assert (K : N <= (1 + 3 * u) * (sd + 18 / 10 * h)).
  { assert (Q : Rabs N <= (1 + 3 * u) * (sd + 18 / 10 * h)); [|rewrite Rabs_pos_eq in Q by exact N0; exact Q].
    apply abs_le_of_sq; [apply Rmult_le_pos; lra|]. apply Rmult_le_reg_r with (1 - 42 / 10 * u); [lra|]. eapply Rle_trans; [exact NN|].
    set (y := sd + 18 / 10 * h). assert (y2 : sd * sd + 32 / 10 * (h * h) <= y * y). { assert (0 <= sd * h) by (apply Rmult_le_pos; assumption). assert (0 <= h * h) by (apply Rmult_le_pos; assumption). unfold y. lra. }
    assert (c : 1 <= (1 + 3 * u) * (1 + 3 * u) * (1 - 42 / 10 * u)). { assert (u * u <= 1 / 1024 * u) by (apply Rmult_le_compat_r; lra). assert (0 <= u * u) by (apply Rmult_le_pos; lra). assert (u * (u * u) <= u * (1 / 1024 * u)) by (apply Rmult_le_compat_l; lra). lra. }
    assert (1 * (y * y) <= (1 + 3 * u) * (1 + 3 * u) * (1 - 42 / 10 * u) * (y * y)) by (apply Rmult_le_compat_r; [apply Rle_0_sqr|exact c]). lra. }
  assert (K2 : (1 + 3 * u) * sd <= (1 + 5 * u) * l).
  { assert (Q : (1 + 5 * u) * (sd * (1 - u)) <= (1 + 5 * u) * l) by (apply Rmult_le_compat_l; lra). assert (u * u * sd <= 1 / 1024 * u * sd) by (apply Rmult_le_compat_r; [exact sd0|apply Rmult_le_compat_r; lra]).
    assert (0 <= u * sd) by (apply Rmult_le_pos; lra). lra. }
  assert (u * h <= 1 / 1024 * h) by (apply Rmult_le_compat_r; lra). lra.
Qed.
Lemma distance_fin (a b : vec bf 3) : u <= 1 / 1024 -> fin (@vlength S 3 (@vsub S 3 a b)) ->
  finite_pt a /\ finite_pt b /\ rdist (vreal a) (vreal b) <= (1 + 7 * u) * B2R (@vlength S 3 (@vsub S 3 a b) : bf) + 3 * sqrt eta.
Proof.
  intros Hu1 F. pose proof (@u_pos p) as Hu. destruct (length_fin _ Hu1 F) as (Fv & l0 & K). set (l := B2R (@vlength S 3 (@vsub S 3 a b) : bf)) in *.
  assert (Fab : finite_pt a /\ finite_pt b).
  { assert (Q : forall i, (i < 3)%nat -> fin (vnth (B754_zero false) i a) /\ fin (vnth (B754_zero false) i b)).
    { intros i Hi. specialize (Fv i Hi). destruct a as [a1 [a2 [a3 []]]], b as [b1 [b2 [b3 []]]]. destruct i as [|[|[|i]]]; [| | |lia]; apply sub_fin in Fv as (? & ? & _); split; assumption. }
    split; intros i Hi; apply (Q i Hi). }
  destruct Fab as (Fa & Fb). split; [exact Fa|]. split; [exact Fb|].
  pose proof (sub_err fc fs fa fpi 3 a b Fa Fb Fv) as E. fold S in E. set (c := vreal (@vsub S 3 a b : vec bf 3)) in *. set (r := rdist (vreal a) (vreal b)) in *.
  assert (T : r <= rnorm c + u * r).
  { unfold r at 1. unfold rdist. replace (rsub (vreal a) (vreal b)) with (radd c (rsub (rsub (vreal a) (vreal b)) c)) by apply radd_rsub.
    eapply Rle_trans; [apply rnorm_triangle|]. change (rnorm (rsub (rsub (vreal a) (vreal b)) c)) with (rdist (rsub (vreal a) (vreal b)) c). rewrite rdist_sym. lra. }
  set (h := sqrt eta) in *. assert (h0 : 0 <= h) by apply sqrt_pos.
  apply Rmult_le_reg_r with (1 - u); [lra|].
  assert (u * u * l <= 1 / 1024 * u * l) by (apply Rmult_le_compat_r; [exact l0|apply Rmult_le_compat_r; lra]). assert (0 <= u * l) by (apply Rmult_le_pos; lra).
  assert (u * h <= 1 / 1024 * h) by (apply Rmult_le_compat_r; lra). lra.
Qed.

(** ** The closest points *)
Section PTS.
Context (Hu1 : 1024 * u <= 1) (k : Z) (G : R) (o o' sd sd' : vec bf 3) (d d' : vec R 3).
Context (Hd : rdist (vreal sd) d <= u * rnorm d) (Hd' : rdist (vreal sd') d' <= u * rnorm d').
Context (Fo : finite_pt o) (Fo' : finite_pt o') (Fs : finite_pt sd) (Fs' : finite_pt sd').
Context (HS : skew_frame p e k G (vreal o) d (vreal o') d').

Lemma cp_den : exists den nt ns : bf, fin den /\ Rabs (B2R den - gram d d') <= denom_bound p d d' /\
  (forall (L : Linal S) eps, @closest_params S L eps o sd o' sd' = if isZero L eps den then None else Some (fdiv nt den, fdiv ns den)) /\
  (clearly_skew p d d' -> forall T T', feet (vreal o) d (vreal o') d' T T' ->
     fin (fdiv nt den) /\ Rabs (B2R (fdiv nt den) - T) * rnorm d <= feet_bound p G d d' /\ Rabs (B2R (fdiv nt den)) * rnorm d * sine d d' <= 4 * G /\
     fin (fdiv ns den) /\ Rabs (B2R (fdiv ns den) - T') * rnorm d' <= feet_bound p G d d' /\ Rabs (B2R (fdiv ns den)) * rnorm d' * sine d d' <= 4 * G).
Proof.
  destruct HS as (K4 & K2 & ML & MM & MG & HW).
  destruct (sk_denom fc fs fa fpi Hu1 k K4 sd sd' d d' G Hd Hd' Fs Fs' ML MM MG) as (F & E).
  eexists _, _, _. split; [exact F|]. split; [exact E|]. split; [intros; reflexivity|].
  intros Hsk T T' HF. destruct (sk_params fc fs fa fpi Hu1 k K4 K2 o o' sd sd' d d' G Hd Hd' Fo Fo' Fs Fs' ML MM MG HW T T' HF Hsk) as (_ & R). exact R.
Qed.

(** a computed closest point, from a computed parameter *)
Lemma cp_point (x : vec bf 3) (sv : vec bf 3) (v : vec R 3) (t : bf) T : rdist (vreal sv) v <= u * rnorm v -> finite_pt x -> finite_pt sv ->
  clearly_skew p d d' -> rnorm (vreal x) <= bpow radix2 (e - 3) -> fin t ->
  Rabs (B2R t - T) * rnorm v <= feet_bound p G d d' -> Rabs (B2R t) * rnorm v * sine d d' <= 4 * G ->
  finite_pt (@vadd S 3 x (@vscale S 3 t sv) : vec bf 3) /\
  rdist (vreal (@vadd S 3 x (@vscale S 3 t sv))) (along (vreal x) v T) <= foot_point_bound p e G d d' (vreal x).
Proof.
  intros Hv Fx Fv Hsk Hx Ft HT HB. pose proof (@u_pos p) as Hu. destruct HS as (K4 & K2 & ML & MM & MG & HW).
  assert (s0 : 0 < sine d d').
  { assert (Q : 0 <= sine d d').
    { unfold sine. apply Rmult_le_pos; [apply rnorm_nonneg|]. left. apply Rinv_0_lt_compat. pose proof (bpow_gt_0 radix2 (- k)). apply Rmult_lt_0_compat; lra. }
    destruct Q as [Q|Q]; [exact Q|]. exfalso. red in Hsk. rewrite <- Q in Hsk. lra. }
  set (sn := sine d d') in *. assert (G0 : 0 < G) by (pose proof (bpow_gt_0 radix2 (- k)); lra).
  assert (B : Rabs (B2R t) * rnorm v <= 4 * (G / sn)). { apply Rmult_le_reg_r with sn; [exact s0|]. replace (4 * (G / sn) * sn) with (4 * G) by (field; lra). exact HB. }
  assert (g0 : 0 <= G / sn) by (apply Rmult_le_pos; [lra|left; apply Rinv_0_lt_compat, s0]).
  assert (Big : 8 * (G / sn) <= bpow radix2 (e - 3)).
  { assert (k0 : (0 <= k)%Z) by (assert (Q : bpow radix2 (- k) <= bpow radix2 k) by lra; apply le_bpow in Q; lia).
    assert (Q : Rabs (8 * (G / sn)) <= bpow radix2 (e - 3)); [|rewrite Rabs_pos_eq in Q by lra; exact Q].
    apply abs_le_of_sq; [apply bpow_ge_0|]. rewrite <- bpow_plus.
    apply Rle_trans with (bpow radix2 e); [|apply bpow_le; lia].
    apply Rmult_le_reg_r with (sn * sn); [apply Rmult_lt_0_compat; exact s0|].
    replace (8 * (G / sn) * (8 * (G / sn)) * (sn * sn)) with (64 * (G * G)) by (field; lra).
    assert (GG : G * G <= bpow radix2 (2 * k)). { replace (2 * k)%Z with (k + k)%Z by lia. rewrite bpow_plus. apply Rmult_le_compat; lra. }
    assert (EE : bpow radix2 (2 * k) <= bpow radix2 e * u). { unfold uround. rewrite <- bpow_plus. apply bpow_le. lia. }
    assert (bpow radix2 e * (92 * u) <= bpow radix2 e * (sn * sn)) by (apply Rmult_le_compat_l; [apply bpow_ge_0|exact Hsk]).
    pose proof (bpow_ge_0 radix2 (2 * k)). lra. }
  assert (Nv : rnorm (vreal sv) <= 2 * rnorm v).
  { pose proof (rnorm_triangle v (rsub (vreal sv) v)) as Q. rewrite radd_rsub in Q. fold (rdist (vreal sv) v) in Q.
    assert (u * rnorm v <= 1 * rnorm v) by (apply Rmult_le_compat_r; [apply rnorm_nonneg|lra]). lra. }
  assert (Bs : Rabs (B2R t) * rnorm (vreal sv) <= bpow radix2 (e - 3)).
  { assert (Rabs (B2R t) * rnorm (vreal sv) <= Rabs (B2R t) * (2 * rnorm v)) by (apply Rmult_le_compat_l; [apply Rabs_pos|exact Nv]). lra. }
  assert (Fq := point_finite fc fs fa fpi 3 x sv t ltac:(lra) Fx Fv Ft Hx Bs). fold S in Fq. split; [exact Fq|].
  destruct (point_near fc fs fa fpi 3 x sv v t ltac:(lra) ltac:(lia) Hv Fq) as (_ & _ & K). fold S in K.
  eapply Rle_trans; [apply (rdist_triangle _ (along (vreal x) v (B2R t)))|].
  assert (E : rdist (along (vreal x) v (B2R t)) (along (vreal x) v T) = Rabs (B2R t - T) * rnorm v).
  { unfold rdist. replace (rsub (along (vreal x) v (B2R t)) (along (vreal x) v T)) with (rscale (B2R t - T) v); [apply rnorm_scale|].
    clear. set (a := vreal x). clearbody a. destruct a as [a1 [a2 [a3 []]]], v as [b1 [b2 [b3 []]]]. unfold along, rsub, radd, rscale. cbn. repeat (apply f_equal2; [ring|]). reflexivity. }
  rewrite E. unfold foot_point_bound, point_bound in *. fold sn. assert (u * (Rabs (B2R t) * rnorm v) <= u * (4 * (G / sn))) by (apply Rmult_le_compat_l; lra). lra.
Qed.
End PTS.
End SG.

(** ** C75: the parameters of the closest points *)
Theorem C75_parameters :
  forall (p e : Z) (Hp : Prec_gt_0 p) (He : Prec_lt_emax p e) f g h pi, let S := IEEE p e Hp He f g h pi in
  forall (L : Linal S) (t : R), LinalF L t -> 1024 * uround p <= 1 ->
  forall (k : Z) (G : R) (o d o' d' : vec (binary_float p e) 3),
    finite_pt o -> finite_pt d -> finite_pt o' -> finite_pt d' -> skew_frame p e k G (vreal o) (vreal d) (vreal o') (vreal d') ->
    let r := @closest_params S L (leps L) o d o' d' in
    (forall (x y : binary_float p e) T T', r = Some (x, y) -> clearly_skew p (vreal d) (vreal d') -> feet (vreal o) (vreal d) (vreal o') (vreal d') T T' ->
       is_finite x = true /\ Rabs (B2R x - T) * rnorm (vreal d) <= feet_bound p G (vreal d) (vreal d') /\
       is_finite y = true /\ Rabs (B2R y - T') * rnorm (vreal d') <= feet_bound p G (vreal d) (vreal d')) /\
    (r = None -> gram (vreal d) (vreal d') <= t + denom_bound p (vreal d) (vreal d')).
Proof.
  intros p e Hp He f g h pi S L t HL Hu1 k G o d o' d' Fo Fd Fo' Fd' HS r. pose proof (@u_pos p) as Hu.
  destruct (cp_den f g h pi Hu1 k G o o' d d' (vreal d) (vreal d') (rdist_self_le 3 (uround p) (vreal d) ltac:(lra)) (rdist_self_le 3 (uround p) (vreal d') ltac:(lra)) Fo Fo' Fd Fd' HS) as (den & nt & ns & Fn & En & Er & Ep).
  unfold r. fold S in Er. rewrite (Er L (leps L)). destruct (isZero L (leps L) den) eqn:Z; split.
  - intros x y T T' Q. discriminate Q.
  - intros _. apply (lf_zero_1 _ _ HL _ Fn) in Z. apply Rabs_le_inv in Z, En. lra.
  - intros x y T T' Q Hsk HF. injection Q as <- <-. destruct (Ep Hsk T T' HF) as (A & B & _ & C & D & _). repeat split; assumption.
  - intros Q. discriminate Q.
Qed.
Print Assumptions C75_parameters.

(** ** Lines: whatever the operands, a reported point is finite, nearly on the first
    line and, up to the tolerance and to roundings, on the second line *)
Theorem C75_line3_sound :
  forall (p e : Z) (Hp : Prec_gt_0 p) (He : Prec_lt_emax p e) f g h pi, let S := IEEE p e Hp He f g h pi in
  forall (L : Linal S) (t : R), LinalF L t -> 1024 * uround p <= 1 ->
    (forall x : binary_float p e, isZero L (leps L) x = true -> is_finite x = true) ->
  forall (o d o' d' q : vec (binary_float p e) 3),
    @intersect_line3 S L (leps L) (@mkLine S 3 o d) (@mkLine S 3 o' d') = Some q ->
    finite_pt q /\ finite_pt o /\ finite_pt o' /\
    exists T T', rdist (vreal q) (along (vreal o) (vreal d) T) <= point_bound p e (vreal o) (vreal d) T /\
      rdist (vreal q) (along (vreal o') (vreal d') T') <=
        (1 + 7 * uround p) * t + 3 * sqrt (uflow p e) + point_bound p e (vreal o') (vreal d') T'.
Proof.
  intros p e Hp He f g h pi S L t HL Hu1 HZ o d o' d' q. pose proof (@u_pos p) as Hu. unfold intersect_line3. cbn [l_origin l_dir].
  destruct (@closest_params S L (leps L) o d o' d') as [[x y]|]; [|discriminate].
  set (P := @vadd S 3 o (@vscale S 3 x d) : vec (binary_float p e) 3). set (Q := @vadd S 3 o' (@vscale S 3 y d') : vec (binary_float p e) 3).
  change (@vadd S 3 o (@vscale S 3 x d)) with P. change (@vadd S 3 o' (@vscale S 3 y d')) with Q.
  set (l := @vlength S 3 (@vsub S 3 P Q) : binary_float p e). change (@vlength S 3 (@vsub S 3 P Q)) with l.
  destruct (isZero L (leps L) l) eqn:Z; [|discriminate]. intros E. apply (f_equal (fun x => match x with Some y => y | None => q end)) in E. cbn beta iota in E. rewrite <- E. clear q E.
  pose proof (HZ l Z) as Fl. destruct (distance_fin f g h pi P Q ltac:(lra) Fl) as (FP & FQ & D). fold S in D. change (@vlength S 3 (@vsub S 3 P Q)) with l in D.
  apply (lf_zero_1 _ _ HL _ Fl) in Z. apply Rabs_le_inv in Z.
  destruct (point_near f g h pi 3 o d (vreal d) x ltac:(lra) ltac:(lia) (rdist_self_le 3 (uround p) (vreal d) ltac:(lra)) FP) as (_ & Fo & K1).
  destruct (point_near f g h pi 3 o' d' (vreal d') y ltac:(lra) ltac:(lia) (rdist_self_le 3 (uround p) (vreal d') ltac:(lra)) FQ) as (_ & Fo' & K2).
  split; [exact FP|]. split; [exact Fo|]. split; [exact Fo'|]. exists (B2R (x : binary_float p e)), (B2R (y : binary_float p e)). split; [exact K1|].
  eapply Rle_trans; [apply (rdist_triangle _ (vreal Q))|].
  assert ((1 + 7 * uround p) * B2R l <= (1 + 7 * uround p) * t) by (apply Rmult_le_compat_l; lra).
  apply Rplus_le_compat; [lra|exact K2].
Qed.
Print Assumptions C75_line3_sound.

(** lines that meet, and clearly not parallel, are reported to meet if the tolerance
    covers the roundings, near the meeting point *)
Theorem C75_line3_complete :
  forall (p e : Z) (Hp : Prec_gt_0 p) (He : Prec_lt_emax p e) f g h pi, let S := IEEE p e Hp He f g h pi in
  forall (L : Linal S) (t z : R), LinalF L t -> 1024 * uround p <= 1 ->
    (forall x : binary_float p e, is_finite x = true -> Rabs (B2R x) <= z -> isZero L (leps L) x = true) ->
  forall (k : Z) (G T T' : R) (o d o' d' : vec (binary_float p e) 3),
    finite_pt o -> finite_pt d -> finite_pt o' -> finite_pt d' -> skew_frame p e k G (vreal o) (vreal d) (vreal o') (vreal d') ->
    rnorm (vreal o) <= bpow radix2 (e - 3) -> rnorm (vreal o') <= bpow radix2 (e - 3) ->
    clearly_skew p (vreal d) (vreal d') -> t + denom_bound p (vreal d) (vreal d') < gram (vreal d) (vreal d') ->
    along (vreal o) (vreal d) T = along (vreal o') (vreal d') T' ->
    meet_bound p e G (vreal o) (vreal d) (vreal o') (vreal d') <= z -> z * z <= bpow radix2 (e - 4) ->
    exists q : vec (binary_float p e) 3, @intersect_line3 S L (leps L) (@mkLine S 3 o d) (@mkLine S 3 o' d') = Some q /\ finite_pt q /\
      rdist (vreal q) (along (vreal o) (vreal d) T) <= foot_point_bound p e G (vreal d) (vreal d') (vreal o).
Proof.
  intros p e Hp He f g h pi S L t z HL Hu1 HZ k G T T' o d o' d' Fo Fd Fo' Fd' HS No No' Hsk HD HM Hz Hz2. pose proof (@u_pos p) as Hu. pose proof (@eta_pos p e) as Hh. change (@ProofFloatErr.eta p e) with (uflow p e) in Hh.
  pose proof (rdist_self_le 3 (uround p) (vreal d) ltac:(lra)) as Hd. pose proof (rdist_self_le 3 (uround p) (vreal d') ltac:(lra)) as Hd'.
  destruct (cp_den f g h pi Hu1 k G o o' d d' (vreal d) (vreal d') Hd Hd' Fo Fo' Fd Fd' HS) as (den & nt & ns & Fn & En & Er & Ep).
  assert (HF : feet (vreal o) (vreal d) (vreal o') (vreal d') T T') by (intros x y; rewrite HM, rdist_self; apply rnorm_nonneg).
  destruct (Ep Hsk T T' HF) as (F1 & B1 & C1 & F2 & B2 & C2). unfold intersect_line3. cbn [l_origin l_dir]. fold S in Er. rewrite (Er L (leps L)).
  destruct (isZero L (leps L) den) eqn:Z0. { exfalso. apply (lf_zero_1 _ _ HL _ Fn) in Z0. apply Rabs_le_inv in Z0, En. lra. }
  set (x := Bdiv mode_NE nt den) in *. set (y := Bdiv mode_NE ns den) in *.
  destruct (cp_point f g h pi Hu1 k G o o' (vreal d) (vreal d') HS o d (vreal d) x T Hd Fo Fd Hsk No F1 B1 C1) as (FP & DP).
  destruct (cp_point f g h pi Hu1 k G o o' (vreal d) (vreal d') HS o' d' (vreal d') y T' Hd' Fo' Fd' Hsk No' F2 B2 C2) as (FQ & DQ). fold S in FP, DP, FQ, DQ.
  set (P := @vadd S 3 o (@vscale S 3 x d) : vec (binary_float p e) 3) in *. set (Q := @vadd S 3 o' (@vscale S 3 y d') : vec (binary_float p e) 3) in *.
  change (@vadd S 3 o (@vscale S 3 x d)) with P. change (@vadd S 3 o' (@vscale S 3 y d')) with Q.
  set (b1 := foot_point_bound p e G (vreal d) (vreal d') (vreal o)) in *. set (b2 := foot_point_bound p e G (vreal d) (vreal d') (vreal o')) in *.
  assert (DPQ : rdist (vreal P) (vreal Q) <= b1 + b2).
  { eapply Rle_trans; [apply (rdist_triangle _ (along (vreal o) (vreal d) T))|]. apply Rplus_le_compat; [exact DP|]. rewrite HM, rdist_sym. exact DQ. }
  assert (b0 : 0 <= rdist (vreal P) (vreal Q)) by apply rnorm_nonneg. unfold meet_bound in Hz. fold b1 b2 in Hz. set (hh := sqrt (uflow p e)) in *. assert (h0 : 0 <= hh) by apply sqrt_pos.
  set (l := @vlength S 3 (@vsub S 3 P Q) : binary_float p e). change (@vlength S 3 (@vsub S 3 P Q)) with l.
  assert (RR : in_reach P Q).
  { split; [exact FP|]. split; [exact FQ|]. eapply Rle_trans; [|exact Hz2]. apply Rmult_le_compat; lra. }
  destruct (distance_err f g h pi 3 P Q ltac:(cbn [INR]; lra) RR) as (Fl & l0 & El). fold S in Fl, l0, El. change (@vlength S 3 (@vsub S 3 P Q)) with l in Fl, l0, El.
  exists P. split; [|split; [exact FP|exact DP]].
  assert (Zl : isZero L (leps L) l = true); [|rewrite Zl; reflexivity]. apply HZ; [exact Fl|].
  change (@ProofFloatErr.eta p e) with (uflow p e) in El. rewrite sqrt_mult in El by (cbn [INR]; lra). fold hh in El. replace (INR 3) with 3 in El by (cbn; ring).
  assert (s3 : sqrt 3 <= 2). { rewrite <- (sqrt_square 2) by lra. apply sqrt_le_1_alt. lra. }
  assert (sqrt 3 * hh <= 2 * hh) by (apply Rmult_le_compat_r; lra). rewrite Rabs_pos_eq by exact l0.
  assert (uround p * rdist (vreal P) (vreal Q) <= 1 / 1024 * rdist (vreal P) (vreal Q)) by (apply Rmult_le_compat_r; lra).
  apply Rabs_le_inv in El. lra.
Qed.
Print Assumptions C75_line3_complete.

(** ** Segments: the reported point is near the closest point of the first segment's
    line, and the closest points are in the segments up to the tolerance and to
    roundings; segments whose closest points are clearly inside are reported (the code
    does not ask how far apart these points are, see C21) *)
Theorem C75_segments :
  forall (p e : Z) (Hp : Prec_gt_0 p) (He : Prec_lt_emax p e) f g h pi, let S := IEEE p e Hp He f g h pi in
  forall (L : Linal S) (t : R), LinalF L t -> 1024 * uround p <= 1 ->
  forall (k : Z) (G T T' : R) (a b a' b' : vec (binary_float p e) 3),
    finite_pt a -> finite_pt b -> finite_pt a' -> finite_pt b' ->
    let d := rsub (vreal b) (vreal a) in let d' := rsub (vreal b') (vreal a') in
    skew_frame p e k G (vreal a) d (vreal a') d' -> rnorm (vreal a) <= bpow radix2 (e - 3) ->
    clearly_skew p d d' -> feet (vreal a) d (vreal a') d' T T' ->
    let r := @intersect_segment3 S L (leps L) (@mkSegment S 3 a b) (@mkSegment S 3 a' b') in
    let within slack v x := - slack <= x * rnorm v <= rnorm v + slack in
    let E := feet_bound p G d d' in
    (forall q : vec (binary_float p e) 3, r = Some q ->
       finite_pt q /\ rdist (vreal q) (along (vreal a) d T) <= foot_point_bound p e G d d' (vreal a) /\
       within (t * rnorm d + E) d T /\ within (t * rnorm d' + E) d' T') /\
    (t + denom_bound p d d' < gram d d' -> within (- E) d T -> within (- E) d' T' -> exists q, r = Some q).
Proof.
  intros p e Hp He f g h pi S L t HL Hu1 k G T T' a b a' b' Fa Fb Fa' Fb' d d' HS Na Hsk HF r within E. pose proof (@u_pos p) as Hu. pose proof (lf_slack _ _ HL) as Ht0.
  assert (HS' := HS). destruct HS as (K4 & K2 & ML & MM & MG & HW). pose proof (bpow_gt_0 radix2 (- k)) as Hk0.
  assert (k0 : (0 <= k)%Z) by (assert (Q : bpow radix2 (- k) <= bpow radix2 k) by lra; apply le_bpow in Q; lia).
  assert (BK : bpow radix2 k <= bpow radix2 (e - 2)) by (apply bpow_le; lia).
  pose proof (sub_finite_near f g h pi 3 b a ltac:(lra) Fb Fa ltac:(change (rdist (vreal b) (vreal a)) with (rnorm d); lra)) as Fv.
  pose proof (sub_finite_near f g h pi 3 b' a' ltac:(lra) Fb' Fa' ltac:(change (rdist (vreal b') (vreal a')) with (rnorm d'); lra)) as Fw. fold S in Fv, Fw.
  pose proof (sub_err f g h pi 3 b a Fb Fa Fv) as Hv. pose proof (sub_err f g h pi 3 b' a' Fb' Fa' Fw) as Hw. fold S in Hv, Hw.
  set (v := @vsub S 3 b a : vec (binary_float p e) 3) in *. set (w := @vsub S 3 b' a' : vec (binary_float p e) 3) in *.
  change (rdist (vreal v) d <= uround p * rnorm d) in Hv. change (rdist (vreal w) d' <= uround p * rnorm d') in Hw.
  destruct (cp_den f g h pi Hu1 k G a a' v w d d' Hv Hw Fa Fa' Fv Fw HS') as (den & nt & ns & Fn & En & Er & Ep). fold S in Er.
  destruct (Ep Hsk T T' HF) as (F1 & B1 & C1 & F2 & B2 & C2). fold E in B1, B2.
  pose proof (@one_spec p e Hp He) as [Fo Eo]. change (ieee_pow p e Hp He 1 0) with (@s1 S) in Fo, Eo.
  set (x := Bdiv mode_NE nt den) in *. set (y := Bdiv mode_NE ns den) in *.
  assert (Ur : r = if isZero L (leps L) den then None else
    if isLess L (leps L) y (B754_zero false : binary_float p e) || isGreater L (leps L) y (@s1 S) || isLess L (leps L) x (B754_zero false : binary_float p e) || isGreater L (leps L) x (@s1 S)
    then None else Some (@vadd S 3 a (@vscale S 3 x v))).
  { unfold r, intersect_segment3. cbn [g_source g_target]. change (@vsub S 3 b a) with v. change (@vsub S 3 b' a') with w. rewrite (Er L (leps L)). destruct (isZero L (leps L) den); reflexivity. }
  clearbody r. subst r.
  assert (IN : forall (z : binary_float p e) X V, is_finite z = true -> 0 < rnorm V -> Rabs (B2R z - X) * rnorm V <= E ->
    isLess L (leps L) z (B754_zero false : binary_float p e) = false -> isGreater L (leps L) z (@s1 S) = false -> within (t * rnorm V + E) V X).
  { intros z X V Fz V0 HZ Z1 Z2. unfold within.
    assert (R : - t <= B2R z <= 1 + t).
    { split.
      - apply Rnot_lt_le. intros Q. refine (diff_true_false (eq_trans (eq_sym (lf_less_0 _ _ HL z (B754_zero false) Fz eq_refl _)) Z1)). change (B2R (B754_zero false : binary_float p e)) with 0. lra.
      - apply Rnot_lt_le. intros Q. refine (diff_true_false (eq_trans (eq_sym (lf_greater_0 _ _ HL z (@s1 S) Fz Fo _)) Z2)). rewrite Eo. cbn. lra. }
    rewrite <- (Rabs_pos_eq (rnorm V)), <- Rabs_mult in HZ by lra. apply Rabs_le_inv in HZ.
    assert (- t * rnorm V <= B2R z * rnorm V) by (apply Rmult_le_compat_r; lra). assert (B2R z * rnorm V <= (1 + t) * rnorm V) by (apply Rmult_le_compat_r; lra). lra. }
  assert (OUT : forall (z : binary_float p e) X V, is_finite z = true -> 0 < rnorm V -> Rabs (B2R z - X) * rnorm V <= E -> within (- E) V X ->
    isLess L (leps L) z (B754_zero false : binary_float p e) = false /\ isGreater L (leps L) z (@s1 S) = false).
  { intros z X V Fz V0 HZ HX. unfold within in HX. rewrite <- (Rabs_pos_eq (rnorm V)), <- Rabs_mult in HZ by lra. apply Rabs_le_inv in HZ.
    assert (R : 0 <= B2R z <= 1) by (split; apply Rmult_le_reg_r with (rnorm V); lra). split.
    - destruct (isLess _ _ _ _) eqn:Q; [|reflexivity]. apply (lf_less_1 _ _ HL z (B754_zero false) Fz eq_refl) in Q. change (B2R (B754_zero false : binary_float p e)) with 0 in Q. lra.
    - destruct (isGreater _ _ _ _) eqn:Q; [|reflexivity]. apply (lf_greater_1 _ _ HL z (@s1 S) Fz Fo) in Q. rewrite Eo in Q. cbn in Q. lra. }
  split.
  - intros q. destruct (isZero L (leps L) den); [discriminate|].
    destruct (isLess L (leps L) y _) eqn:G1; [discriminate|]. destruct (isGreater L (leps L) y _) eqn:G2; [discriminate|].
    destruct (isLess L (leps L) x _) eqn:G3; [discriminate|]. destruct (isGreater L (leps L) x _) eqn:G4; [discriminate|]. cbn [orb].
    intros Q. apply (f_equal (fun x => match x with Some y => y | None => q end)) in Q. cbn beta iota in Q. rewrite <- Q. clear q Q.
    destruct (cp_point f g h pi Hu1 k G a a' d d' HS' a v d x T Hv Fa Fv Hsk Na F1 B1 C1) as (FP & DP). fold S in FP, DP.
    split; [exact FP|]. split; [exact DP|]. split; [apply (IN x)|apply (IN y)]; try assumption; lra.
  - intros HD H1 H2. destruct (isZero L (leps L) den) eqn:Z0. { exfalso. apply (lf_zero_1 _ _ HL _ Fn) in Z0. apply Rabs_le_inv in Z0, En. lra. }
    destruct (OUT x T d F1 ltac:(lra) B1 H1) as (-> & ->). destruct (OUT y T' d' F2 ltac:(lra) B2 H2) as (-> & ->). eexists. reflexivity.
Qed.
Print Assumptions C75_segments.

(** a segment and a ray: the reported point is near the closest point of the ray's line *)
Theorem C75_segment_ray :
  forall (p e : Z) (Hp : Prec_gt_0 p) (He : Prec_lt_emax p e) f g h pi, let S := IEEE p e Hp He f g h pi in
  forall (L : Linal S) (t : R), LinalF L t -> 1024 * uround p <= 1 ->
  forall (k : Z) (G T T' : R) (a b o v : vec (binary_float p e) 3),
    finite_pt a -> finite_pt b -> finite_pt o -> finite_pt v ->
    let d := rsub (vreal b) (vreal a) in let d' := vreal v in
    skew_frame p e k G (vreal a) d (vreal o) d' -> rnorm (vreal o) <= bpow radix2 (e - 3) ->
    clearly_skew p d d' -> feet (vreal a) d (vreal o) d' T T' ->
    let r := @intersect_segment_ray S L (leps L) (@mkSegment S 3 a b) (@mkRay S 3 o v) in
    let E := feet_bound p G d d' in
    (forall q : vec (binary_float p e) 3, r = Some q ->
       finite_pt q /\ rdist (vreal q) (along (vreal o) d' T') <= foot_point_bound p e G d d' (vreal o) /\
       - (t * rnorm d + E) <= T * rnorm d <= rnorm d + (t * rnorm d + E) /\ - (t * rnorm d' + E) <= T' * rnorm d') /\
    (t + denom_bound p d d' < gram d d' -> E <= T * rnorm d <= rnorm d - E -> E <= T' * rnorm d' -> exists q, r = Some q).
Proof.
  intros p e Hp He f g h pi S L t HL Hu1 k G T T' a b o w Fa Fb Fo' Fw d d' HS No Hsk HF r E. pose proof (@u_pos p) as Hu. pose proof (lf_slack _ _ HL) as Ht0.
  assert (HS' := HS). destruct HS as (K4 & K2 & ML & MM & MG & HW). pose proof (bpow_gt_0 radix2 (- k)) as Hk0.
  assert (k0 : (0 <= k)%Z) by (assert (Q : bpow radix2 (- k) <= bpow radix2 k) by lra; apply le_bpow in Q; lia).
  assert (BK : bpow radix2 k <= bpow radix2 (e - 2)) by (apply bpow_le; lia).
  pose proof (sub_finite_near f g h pi 3 b a ltac:(lra) Fb Fa ltac:(change (rdist (vreal b) (vreal a)) with (rnorm d); lra)) as Fv. fold S in Fv.
  pose proof (sub_err f g h pi 3 b a Fb Fa Fv) as Hv. fold S in Hv. pose proof (rdist_self_le 3 (uround p) d' ltac:(lra)) as Hw.
  set (v := @vsub S 3 b a : vec (binary_float p e) 3) in *.
  change (rdist (vreal v) d <= uround p * rnorm d) in Hv.
  destruct (cp_den f g h pi Hu1 k G a o v w d d' Hv Hw Fa Fo' Fv Fw HS') as (den & nt & ns & Fn & En & Er & Ep). fold S in Er.
  destruct (Ep Hsk T T' HF) as (F1 & B1 & C1 & F2 & B2 & C2). fold E in B1, B2.
  pose proof (@one_spec p e Hp He) as [Fo Eo]. change (ieee_pow p e Hp He 1 0) with (@s1 S) in Fo, Eo.
  set (x := Bdiv mode_NE nt den) in *. set (y := Bdiv mode_NE ns den) in *.
  assert (Ur : r = if isZero L (leps L) den then None else
    if isLess L (leps L) x (B754_zero false : binary_float p e) || isGreater L (leps L) x (@s1 S) || isLess L (leps L) y (B754_zero false : binary_float p e)
    then None else Some (@vadd S 3 o (@vscale S 3 y w))).
  { unfold r, intersect_segment_ray. cbn [g_source g_target r_origin r_dir]. change (@vsub S 3 b a) with v. rewrite (Er L (leps L)). destruct (isZero L (leps L) den); reflexivity. }
  clearbody r. subst r.
  assert (LO : forall z : binary_float p e, is_finite z = true -> isLess L (leps L) z (B754_zero false : binary_float p e) = false -> - t <= B2R z).
  { intros z Fz Z1. apply Rnot_lt_le. intros Q. refine (diff_true_false (eq_trans (eq_sym (lf_less_0 _ _ HL z (B754_zero false) Fz eq_refl _)) Z1)). change (B2R (B754_zero false : binary_float p e)) with 0. lra. }
  assert (HI : forall z : binary_float p e, is_finite z = true -> isGreater L (leps L) z (@s1 S) = false -> B2R z <= 1 + t).
  { intros z Fz Z2. apply Rnot_lt_le. intros Q. refine (diff_true_false (eq_trans (eq_sym (lf_greater_0 _ _ HL z (@s1 S) Fz Fo _)) Z2)). rewrite Eo. cbn. lra. }
  assert (LO' : forall z : binary_float p e, is_finite z = true -> 0 <= B2R z -> isLess L (leps L) z (B754_zero false : binary_float p e) = false).
  { intros z Fz R. destruct (isLess _ _ _ _) eqn:Q; [|reflexivity]. apply (lf_less_1 _ _ HL z (B754_zero false) Fz eq_refl) in Q. change (B2R (B754_zero false : binary_float p e)) with 0 in Q. lra. }
  assert (HI' : forall z : binary_float p e, is_finite z = true -> B2R z <= 1 -> isGreater L (leps L) z (@s1 S) = false).
  { intros z Fz R. destruct (isGreater _ _ _ _) eqn:Q; [|reflexivity]. apply (lf_greater_1 _ _ HL z (@s1 S) Fz Fo) in Q. rewrite Eo in Q. cbn in Q. lra. }
  assert (X1 := B1). assert (X2 := B2). rewrite <- (Rabs_pos_eq (rnorm d)), <- Rabs_mult in X1 by lra. rewrite <- (Rabs_pos_eq (rnorm d')), <- Rabs_mult in X2 by lra. apply Rabs_le_inv in X1, X2.
  split.
  - intros q. destruct (isZero L (leps L) den); [discriminate|].
    destruct (isLess L (leps L) x _) eqn:G1; [discriminate|]. destruct (isGreater L (leps L) x _) eqn:G2; [discriminate|].
    destruct (isLess L (leps L) y _) eqn:G3; [discriminate|]. cbn [orb].
    intros Q. apply (f_equal (fun x => match x with Some y => y | None => q end)) in Q. cbn beta iota in Q. rewrite <- Q. clear q Q.
    destruct (cp_point f g h pi Hu1 k G a o d d' HS' o w d' y T' Hw Fo' Fw Hsk No F2 B2 C2) as (FP & DP). fold S in FP, DP.
    split; [exact FP|]. split; [exact DP|]. apply (LO x F1) in G1. apply (HI x F1) in G2. apply (LO y F2) in G3.
    assert (- t * rnorm d <= B2R x * rnorm d) by (apply Rmult_le_compat_r; lra). assert (B2R x * rnorm d <= (1 + t) * rnorm d) by (apply Rmult_le_compat_r; lra).
    assert (- t * rnorm d' <= B2R y * rnorm d') by (apply Rmult_le_compat_r; lra). lra.
  - intros HD H1 H2. destruct (isZero L (leps L) den) eqn:Z0. { exfalso. apply (lf_zero_1 _ _ HL _ Fn) in Z0. apply Rabs_le_inv in Z0, En. lra. }
    rewrite (LO' x F1), (HI' x F1), (LO' y F2); [eexists; reflexivity|..]; [apply Rmult_le_reg_r with (rnorm d')|apply Rmult_le_reg_r with (rnorm d)..]; lra.
Qed.
Print Assumptions C75_segment_ray.

(** ** The lines from 0 along (1, 2, 0) and from (1, 0, 0) along (-1, 1, 0), times [s] *)
Theorem C75_meet_refuted :
  forall f g h pi, let S := B64 f g h pi in let z := b64_ofZ 0 in
  let d := mk3 (b64_ofZ 1) (b64_ofZ 2) z in let d' := mk3 (b64_ofZ (-1)) (b64_ofZ 1) z in
  (exists o o' : vec b64 3, finite_pt o /\ finite_pt d /\ finite_pt o' /\ finite_pt d' /\
     along (vreal o) (vreal d) (1 / 3) = along (vreal o') (vreal d') (2 / 3) /\ gram (vreal d) (vreal d') = 9 /\
     let L := raw_linal S z in is_some (@intersect_line3 S L (leps L) (@mkLine S 3 o d) (@mkLine S 3 o' d')) = false) /\
  (exists o o' : vec b64 3, finite_pt o /\ finite_pt o' /\
     along (vreal o) (vreal d) (bpow radix2 40 / 3) = along (vreal o') (vreal d') (bpow radix2 40 * 2 / 3) /\
     let L := tol_linal S (b64_pow 1 (-30)) in is_some (@intersect_line3 S L (leps L) (@mkLine S 3 o d) (@mkLine S 3 o' d')) = false).
Proof.
  intros f g h pi S z d d'. destruct (b64_small 0 eq_refl) as (F0 & E0), (b64_small 1 eq_refl) as (F1 & E1), (b64_small 2 eq_refl) as (F2 & E2), (b64_small (-1) eq_refl) as (F3 & E3). fold z in F0, E0.
  destruct (@pow_spec 53 1024 prec53 prec_emax64 1 40 eq_refl ltac:(lia) ltac:(lia)) as [Fs Es]. change (ieee_pow 53 1024 prec53 prec_emax64 1 40) with (b64_pow 1 40) in Fs, Es. set (s := b64_pow 1 40) in *.
  assert (Ed : vreal d = mk3 1 2 0) by (change (vreal d) with (mk3 (B2R (b64_ofZ 1)) (B2R (b64_ofZ 2)) (B2R z)); now rewrite E0, E1, E2).
  assert (Ed' : vreal d' = mk3 (-1) 1 0) by (change (vreal d') with (mk3 (B2R (b64_ofZ (-1))) (B2R (b64_ofZ 1)) (B2R z)); now rewrite E0, E1, E3).
  set (o := mk3 z z z). assert (Eo : vreal o = mk3 0 0 0) by (change (vreal o) with (mk3 (B2R z) (B2R z) (B2R z)); now rewrite E0).
  split.
  - exists o, (mk3 (b64_ofZ 1) z z). split; [intros [|[|[|i]]] Hi; try lia; assumption|]. split; [intros [|[|[|i]]] Hi; try lia; assumption|].
    split; [intros [|[|[|i]]] Hi; try lia; assumption|]. split; [intros [|[|[|i]]] Hi; try lia; assumption|]. rewrite Ed, Ed', Eo.
    change (vreal (mk3 (b64_ofZ 1) z z)) with (mk3 (B2R (b64_ofZ 1)) (B2R z) (B2R z)). rewrite E0, E1.
    split; [unfold along, radd, rscale, mk3; cbn [vmap vmap2 fst snd]; repeat (apply f_equal2; [field|]); reflexivity|].
    split; [unfold gram, rdot, mk3; cbn; ring|]. vm_compute. reflexivity.
  - exists o, (mk3 s z z). split; [intros [|[|[|i]]] Hi; try lia; assumption|]. split; [intros [|[|[|i]]] Hi; try lia; assumption|]. rewrite Ed, Ed', Eo.
    change (vreal (mk3 s z z)) with (mk3 (B2R s) (B2R z) (B2R z)). rewrite E0, Es.
    split; [unfold along, radd, rscale, mk3; cbn [vmap vmap2 fst snd]; repeat (apply f_equal2; [field|]); reflexivity|]. vm_compute. reflexivity.
Qed.
Print Assumptions C75_meet_refuted.

(** Two perpendicular segments through each other's midpoints, of length [2^-8]: under a
    tolerance of [2^-30] their directions pass for parallel *)
Theorem C75_short_refuted :
  forall f g h pi, let S := B64 f g h pi in let z := b64_ofZ 0 in
  let s := b64_pow 1 (-9) in let m := b64_pow (-1) (-9) in
  let a := mk3 m z z in let b := mk3 s z z in let a' := mk3 z m z in let b' := mk3 z s z in
  finite_pt a /\ finite_pt b /\ finite_pt a' /\ finite_pt b' /\
  along (vreal a) (rsub (vreal b) (vreal a)) (1 / 2) = along (vreal a') (rsub (vreal b') (vreal a')) (1 / 2) /\
  rdot (rsub (vreal b) (vreal a)) (rsub (vreal b') (vreal a')) = 0 /\ along (vreal a) (vreal b) 1 = along (vreal a') (vreal b') 1 /\
  let L := tol_linal S (b64_pow 1 (-30)) in
  is_some (@intersect_segment3 S L (leps L) (@mkSegment S 3 a b) (@mkSegment S 3 a' b')) = false /\
  is_some (@intersect_line3 S L (leps L) (@mkLine S 3 a b) (@mkLine S 3 a' b')) = false.
Proof.
  intros f g h pi S z s m a b a' b'. destruct (b64_small 0 eq_refl) as (F0 & E0). fold z in F0, E0.
  destruct (@pow_spec 53 1024 prec53 prec_emax64 1 (-9) eq_refl ltac:(lia) ltac:(lia)) as [Fs Es]. change (ieee_pow 53 1024 prec53 prec_emax64 1 (-9)) with s in Fs, Es.
  destruct (@pow_spec 53 1024 prec53 prec_emax64 (-1) (-9) eq_refl ltac:(lia) ltac:(lia)) as [Fm Em]. change (ieee_pow 53 1024 prec53 prec_emax64 (-1) (-9)) with m in Fm, Em.
  set (x := bpow radix2 (-9)) in *. replace (-1 * x) with (- x) in Em by ring. rewrite Rmult_1_l in Es.
  assert (Ea : vreal a = mk3 (- x) 0 0) by (change (vreal a) with (mk3 (B2R m) (B2R z) (B2R z)); now rewrite E0, Em).
  assert (Eb : vreal b = mk3 x 0 0) by (change (vreal b) with (mk3 (B2R s) (B2R z) (B2R z)); now rewrite E0, Es).
  assert (Ea' : vreal a' = mk3 0 (- x) 0) by (change (vreal a') with (mk3 (B2R z) (B2R m) (B2R z)); now rewrite E0, Em).
  assert (Eb' : vreal b' = mk3 0 x 0) by (change (vreal b') with (mk3 (B2R z) (B2R s) (B2R z)); now rewrite E0, Es).
  split; [intros [|[|[|i]]] Hi; try lia; assumption|]. split; [intros [|[|[|i]]] Hi; try lia; assumption|].
  split; [intros [|[|[|i]]] Hi; try lia; assumption|]. split; [intros [|[|[|i]]] Hi; try lia; assumption|].
  rewrite Ea, Eb, Ea', Eb'. split; [unfold along, radd, rscale, rsub, mk3; cbn [vmap vmap2 fst snd]; repeat (apply f_equal2; [field|]); reflexivity|].
  split; [unfold rdot, rsub, mk3; cbn; ring|].
  split; [unfold along, radd, rscale, mk3; cbn [vmap vmap2 fst snd]; repeat (apply f_equal2; [ring|]); reflexivity|]. split; vm_compute; reflexivity.
Qed.
Print Assumptions C75_short_refuted.

(** the segments from (0,0,0) to (4,0,0) and from (2,-1,0) to (2,1,0), and the lines and
    the ray with the same origins and directions, with a tolerance of [2^-20] *)
Example C75_example : forall f g h pi, let S := B64 f g h pi in
  let z := b64_ofZ 0 in let eps := b64_pow 1 (-20) in let L := tol_linal S eps in
  let a := mk3 z z z in let b := mk3 (b64_ofZ 4) z z in let a' := mk3 (b64_ofZ 2) (b64_ofZ (-1)) z in let b' := mk3 (b64_ofZ 2) (b64_ofZ 1) z in let v' := mk3 z (b64_ofZ 2) z in
  let t := succ radix2 (FLT_exp (3 - 1024 - 53) 53) (B2R eps) in let w := bpow radix2 (-20) in
  LinalF L t /\ 1024 * uround 53 <= 1 /\ t <= 1 /\
  (forall x : b64, isZero L (leps L) x = true -> is_finite x = true) /\
  (forall x : b64, is_finite x = true -> Rabs (B2R x) <= w -> isZero L (leps L) x = true) /\
  finite_pt a /\ finite_pt b /\ finite_pt a' /\ finite_pt b' /\ finite_pt v' /\
  let d := vreal b in let d' := vreal v' in
  rsub (vreal b) (vreal a) = d /\ rsub (vreal b') (vreal a') = d' /\
  skew_frame 53 1024 2 4 (vreal a) d (vreal a') d' /\
  rnorm (vreal a) <= bpow radix2 (1024 - 3) /\ rnorm (vreal a') <= bpow radix2 (1024 - 3) /\
  clearly_skew 53 d d' /\ t + denom_bound 53 d d' < gram d d' /\
  along (vreal a) d (1 / 2) = along (vreal a') d' (1 / 2) /\ feet (vreal a) d (vreal a') d' (1 / 2) (1 / 2) /\
  meet_bound 53 1024 4 (vreal a) d (vreal a') d' <= w /\ w * w <= bpow radix2 (1024 - 4) /\
  feet_bound 53 4 d d' <= 1 / 2 * rnorm d <= rnorm d - feet_bound 53 4 d d' /\
  feet_bound 53 4 d d' <= 1 / 2 * rnorm d' <= rnorm d' - feet_bound 53 4 d d'.
Proof.
  intros f g h pi S z eps L a b a' b' v' t w.
  destruct (b64_small 0 eq_refl) as (F0 & E0), (b64_small 1 eq_refl) as (F1 & E1), (b64_small 4 eq_refl) as (F4 & E4), (b64_small 2 eq_refl) as (F2 & E2), (b64_small (-1) eq_refl) as (F3 & E3). fold z in F0, E0.
  destruct (@pow_spec 53 1024 prec53 prec_emax64 1 (-20) eq_refl ltac:(lia) ltac:(lia)) as [Fs Es]. change (ieee_pow 53 1024 prec53 prec_emax64 1 (-20)) with eps in Fs, Es. rewrite Rmult_1_l in Es. fold w in Es.
  assert (w0 : 0 < w <= 1 / 1048576) by (split; [apply bpow_gt_0|unfold w; cbn; lra]).
  assert (Hu : 0 < uround 53 <= 1 / 1048576 * (1 / 1048576)). { split; [apply bpow_gt_0|]. apply Rle_trans with (bpow radix2 (-40)); [apply bpow_le; lia|cbn; lra]. }
  assert (Hh : 0 < uflow 53 1024 <= bpow radix2 (-60)) by (split; [apply bpow_gt_0|apply bpow_le; lia]).
  assert (Hs : sqrt (uflow 53 1024) <= 1 / 1048576 * (1 / 1024)).
  { apply Rle_trans with (sqrt (bpow radix2 (-30) * bpow radix2 (-30))); [apply sqrt_le_1_alt; rewrite <- bpow_plus; apply Hh|]. rewrite sqrt_square by apply bpow_ge_0. cbn. lra. }
  assert (Hh' : bpow radix2 (-60) <= 1 / 1048576 * (1 / 1024)) by (apply Rle_trans with (bpow radix2 (-30)); [apply bpow_le; lia|cbn; lra]).
  assert (Hw : 1 / 1048576 <= w) by (unfold w; cbn; lra).
  assert (HB : 4 <= bpow radix2 (1024 - 3)) by (change 4 with (bpow radix2 2); apply bpow_le; lia).
  split; [apply (tol_linal_F f g h pi eps Fs); rewrite Es; lra|]. split; [lra|].
  assert (Ht : t <= 1).
  { unfold t. apply succ_le_lt; [apply FLT_exp_valid; reflexivity|apply (generic_format_B2R 53 1024)| |rewrite Es; lra].
    change 1 with (bpow radix2 0). apply generic_format_bpow. unfold FLT_exp. lia. }
  split; [exact Ht|].
  split. { intros x Hx. destruct x as [| |  |]; try reflexivity; cbn in Hx; [|discriminate Hx]. change (@Bleb 53 1024 (B754_infinity false) eps = true) in Hx. vm_compute in Hx. discriminate Hx. }
  split. { intros x Fx Hx. change (@Bleb 53 1024 (Babs x) eps = true). rewrite Bleb_correct by (try rewrite is_finite_Babs; assumption). rewrite B2R_Babs, Es. apply Rle_bool_true. exact Hx. }
  split; [intros [|[|[|i]]] Hi; try lia; assumption|]. split; [intros [|[|[|i]]] Hi; try lia; assumption|].
  split; [intros [|[|[|i]]] Hi; try lia; assumption|]. split; [intros [|[|[|i]]] Hi; try lia; assumption|]. split; [intros [|[|[|i]]] Hi; try lia; assumption|].
  intros d d'.
  assert (Ea : vreal a = mk3 0 0 0) by (change (vreal a) with (mk3 (B2R z) (B2R z) (B2R z)); now rewrite E0).
  assert (Ed : d = mk3 4 0 0) by (unfold d; change (vreal b) with (mk3 (B2R (b64_ofZ 4)) (B2R z) (B2R z)); now rewrite E0, E4).
  assert (Ea' : vreal a' = mk3 2 (-1) 0) by (change (vreal a') with (mk3 (B2R (b64_ofZ 2)) (B2R (b64_ofZ (-1))) (B2R z)); now rewrite E0, E2, E3).
  assert (Eb' : vreal b' = mk3 2 1 0) by (change (vreal b') with (mk3 (B2R (b64_ofZ 2)) (B2R (b64_ofZ 1)) (B2R z)); now rewrite E0, E2, E1).
  assert (Ed' : d' = mk3 0 2 0) by (unfold d'; change (vreal v') with (mk3 (B2R z) (B2R (b64_ofZ 2)) (B2R z)); now rewrite E0, E2).
  fold d. rewrite Ea, Ea', Eb', Ed, Ed'.
  assert (N1 : rnorm (mk3 4 0 0) = 4). { unfold rnorm. replace (rdot _ _) with (4 * 4) by (unfold rdot, mk3; cbn; ring). apply sqrt_square. lra. }
  assert (N2 : rnorm (mk3 0 2 0) = 2). { unfold rnorm. replace (rdot _ _) with (2 * 2) by (unfold rdot, mk3; cbn; ring). apply sqrt_square. lra. }
  assert (N3 : rnorm (mk3 0 0 0) = 0). { unfold rnorm. replace (rdot _ _) with (0 * 0) by (unfold rdot, mk3; cbn; ring). apply sqrt_square. lra. }
  assert (N4 : rnorm (mk3 2 (-1) 0) <= 3). { unfold rnorm. replace (rdot _ _) with 5 by (unfold rdot, mk3; cbn; ring). rewrite <- (sqrt_square 3) by lra. apply sqrt_le_1_alt. lra. }
  assert (D4 : rdist (mk3 0 0 0) (mk3 2 (-1) 0) <= 3). { unfold rdist, rnorm. replace (rdot _ _) with 5 by (unfold rdot, rsub, mk3; cbn; ring). rewrite <- (sqrt_square 3) by lra. apply sqrt_le_1_alt. lra. }
  assert (SN : sine (mk3 4 0 0) (mk3 0 2 0) = 1).
  { unfold sine. rewrite N1, N2. unfold rnorm. replace (rdot _ _) with (8 * 8) by (unfold rdot, rcross, mk3; cbn; ring). rewrite sqrt_square by lra. lra. }
  assert (AL : along (mk3 0 0 0) (mk3 4 0 0) (1 / 2) = along (mk3 2 (-1) 0) (mk3 0 2 0) (1 / 2)) by (unfold along, radd, rscale, mk3; cbn [vmap vmap2 fst snd]; repeat (apply f_equal2; [field|]); reflexivity).
  split; [unfold rsub, mk3; cbn [vmap2 fst snd]; repeat (apply f_equal2; [ring|]); reflexivity|].
  split; [unfold rsub, mk3; cbn [vmap2 fst snd]; repeat (apply f_equal2; [ring|]); reflexivity|].
  split. { unfold skew_frame. rewrite N1, N2. change (bpow radix2 (- (2))) with (/ 4). change (bpow radix2 2) with 4. repeat split; try lia; lra. }
  split; [rewrite N3; lra|]. split; [lra|]. split; [unfold clearly_skew; rewrite SN; lra|].
  split. { unfold denom_bound. replace (gram _ _) with 64 by (unfold gram, rdot, mk3; cbn; ring). replace (rdot (mk3 4 0 0) (mk3 4 0 0)) with 16 by (unfold rdot, mk3; cbn; ring). replace (rdot (mk3 0 2 0) (mk3 0 2 0)) with 4 by (unfold rdot, mk3; cbn; ring). lra. }
  split; [exact AL|]. split; [intros x y; rewrite AL, rdist_self; apply rnorm_nonneg|].
  assert (FB : feet_bound 53 4 (mk3 4 0 0) (mk3 0 2 0) = 760 * uround 53) by (unfold feet_bound; rewrite SN; field).
  split. { unfold meet_bound, foot_point_bound. rewrite FB, SN, N3. unfold Rdiv at 1 2. rewrite Rinv_1, Rmult_1_r.
    assert (uround 53 * (rnorm (mk3 2 (-1) 0) + 20 * 4) <= uround 53 * 83) by (apply Rmult_le_compat_l; lra). lra. }
  split. { apply Rle_trans with (bpow radix2 0); [|apply bpow_le; lia]. cbn [bpow]. assert (w * w <= 1 * 1) by (apply Rmult_le_compat; lra). lra. }
  rewrite FB, N1, N2. split; lra.
Qed.
