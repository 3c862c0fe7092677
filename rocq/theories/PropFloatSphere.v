(** * Property theorems: intersections with spheres in floating point (C74) *)

From Coq Require Import List Arith Bool Lia Reals Lra ZArith.
From Flocq Require Import Core BinarySingleNaN.
From Verif Require Import Scalar Linal Result SpecReal VecR VecLemmas SpecIEEE SpecFloatErr SpecFloatPlane SpecFloatSphere ModelShapes ModelIntersect
  ProofRound ProofIEEE ProofBoxIEEE ProofFloatErr ProofFloatNorm ProofFloatDist ProofFloatTransform ProofFloatPlane ProofFloatSphere
  PropFloatTess PropFloatPlane PropFloatCross.
Local Open Scope R_scope.

Lemma discr_bound_pos p c r o d : 0 <= discr_bound p c r o d.
Proof.
  unfold discr_bound. pose proof (@u_pos p) as U. apply Rmult_le_pos; [lra|]. apply Rmult_le_pos; [|apply Rle_0_sqr]. rewrite <- (rnorm_sq d). apply Rle_0_sqr.
Qed.

(** the computation of the model, over any scalar: coefficients, candidate parameters
    and the selection of the reported points; [keep] is the test of the parameter *)
Section GEN.
Context {S : Scalar}.
Local Open Scope scalar_scope.
Notation s2 := (@s1 S + @s1 S)%S.
Notation s4 := (s2 + s2)%S.
Definition g_a (sd : vec S 3) : S := dot sd sd.
Definition g_b (cen o sd : vec S 3) : S := s2 * dot sd (vsub o cen).
Definition g_disc (cen o sd : vec S 3) (r : S) : S := g_b cen o sd * g_b cen o sd - s4 * g_a sd * (dot (vsub o cen) (vsub o cen) - r * r).
Definition g_t1 (cen o sd : vec S 3) (r : S) : S := (- g_b cen o sd + ssqrt (g_disc cen o sd r)) / (s2 * g_a sd).
Definition g_t2 (cen o sd : vec S 3) (r : S) : S := (- g_b cen o sd - ssqrt (g_disc cen o sd r)) / (s2 * g_a sd).
Definition g_t0 (cen o sd : vec S 3) : S := - g_b cen o sd / s2 * g_a sd.
Definition g_pt (o sd : vec S 3) (t : S) : vec S 3 := vadd o (vscale t sd).
Definition g_hits (L : Linal S) (keep : S -> bool) (cen o sd : vec S 3) (r : S) : option (vec S 3) * option (vec S 3) :=
  let D := g_disc cen o sd r in
  if isGreater L (leps L) D s0 then
    (if keep (g_t1 cen o sd r) then Some (g_pt o sd (g_t1 cen o sd r)) else None, if keep (g_t2 cen o sd r) then Some (g_pt o sd (g_t2 cen o sd r)) else None)
  else if isZero L (leps L) D then
    if keep (g_t0 cen o sd) then (Some (g_pt o sd (g_t0 cen o sd)), None) else (None, None)
  else (None, None).
Lemma g_b_eq cen o sd : g_b cen o sd = s2 * dot sd (vsub o cen).
Proof. reflexivity. Qed.
Lemma g_a_eq sd : g_a sd = dot sd sd.
Proof. reflexivity. Qed.
Lemma g_disc_eq cen o sd r : g_disc cen o sd r = g_b cen o sd * g_b cen o sd - s4 * g_a sd * (dot (vsub o cen) (vsub o cen) - r * r).
Proof. reflexivity. Qed.
Lemma g_t1_eq cen o sd r : g_t1 cen o sd r = (- g_b cen o sd + ssqrt (g_disc cen o sd r)) / (s2 * g_a sd).
Proof. reflexivity. Qed.
Lemma g_t2_eq cen o sd r : g_t2 cen o sd r = (- g_b cen o sd - ssqrt (g_disc cen o sd r)) / (s2 * g_a sd).
Proof. reflexivity. Qed.
Lemma g_t0_eq cen o sd : g_t0 cen o sd = - g_b cen o sd / s2 * g_a sd.
Proof. reflexivity. Qed.
Lemma g_line L cen o sd r : intersect_sphere_line L (leps L) (mkSphere cen r) (mkLine o sd) = g_hits L (fun _ => true) cen o sd r.
Proof. reflexivity. Qed.
Lemma g_ray L cen o sd r : intersect_sphere_ray L (leps L) (mkSphere cen r) (mkRay o sd) = g_hits L (fun t => isGreaterEq L (leps L) t s0) cen o sd r.
Proof. reflexivity. Qed.
Lemma g_segment L cen a b r : intersect_sphere_segment L (leps L) (mkSphere cen r) (mkSegment a b) =
  g_hits L (fun t => isGreaterEq L (leps L) t s0 && isLessEq L (leps L) t s1) cen a (vsub b a) r.
Proof. reflexivity. Qed.
End GEN.

Section SG.
Context {p e : Z} {Hp : Prec_gt_0 p} {He : Prec_lt_emax p e}.
Notation bf := (binary_float p e).
Notation u := (uround p).
Notation zero := (B754_zero false : bf).
Context (fc fs fa : bf -> bf) (fpi : bf).
Notation S := (IEEE p e Hp He fc fs fa fpi).
Notation two := (ftwo fc fs fa fpi).
Notation four := (ffour fc fs fa fpi).
Notation fadd := (@Bplus p e Hp He mode_NE).
Notation fsub := (@Bminus p e Hp He mode_NE).
Notation fmul := (@Bmult p e Hp He mode_NE).
Notation fdiv := (@Bdiv p e Hp He mode_NE).
Notation fsqrt := (@Bsqrt p e Hp He mode_NE).

(** the same in floating point; the equations are proved by rewriting, because checking
    them by unfolding the operations is slow *)
Notation q_a := (@g_a S).
Notation q_b := (@g_b S).
Notation q_disc := (@g_disc S).
Notation q_t1 := (@g_t1 S).
Notation q_t2 := (@g_t2 S).
Notation q_t0 := (@g_t0 S).
Notation q_pt := (@g_pt S).
Notation q_hits := (@g_hits S).
Lemma op_add (x y : bf) : @sadd S x y = fadd x y.
Proof. reflexivity. Qed.
Lemma op_sub (x y : bf) : @ssub S x y = fsub x y.
Proof. reflexivity. Qed.
Lemma op_mul (x y : bf) : @smul S x y = fmul x y.
Proof. reflexivity. Qed.
Lemma op_div (x y : bf) : @sdiv S x y = fdiv x y.
Proof. reflexivity. Qed.
Lemma op_sqrt (x : bf) : @ssqrt S x = fsqrt x.
Proof. reflexivity. Qed.
Lemma op_opp (x : bf) : @sopp S x = Bopp x.
Proof. reflexivity. Qed.
Lemma two_eq : fadd (@s1 S) (@s1 S) = two.
Proof. reflexivity. Qed.
Lemma four_eq : fadd two two = four.
Proof. reflexivity. Qed.
Lemma q_b_eq cen o sd : q_b cen o sd = fmul two (@dot S 3 sd (@vsub S 3 o cen)).
Proof. rewrite g_b_eq, op_add, two_eq, op_mul. reflexivity. Qed.
Lemma q_disc_eq cen o sd r : q_disc cen o sd r =
  fsub (fmul (q_b cen o sd) (q_b cen o sd)) (fmul (fmul four (@dot S 3 sd sd)) (fsub (@dot S 3 (@vsub S 3 o cen) (@vsub S 3 o cen)) (fmul r r))).
Proof. rewrite g_disc_eq, g_a_eq, !op_add, two_eq, four_eq, !op_sub, !op_mul. reflexivity. Qed.
Lemma q_t1_eq cen o sd r : q_t1 cen o sd r = fdiv (fadd (Bopp (q_b cen o sd)) (fsqrt (q_disc cen o sd r))) (fmul two (@dot S 3 sd sd)).
Proof. rewrite g_t1_eq, g_a_eq, op_div, op_mul, !op_add, two_eq, op_opp, op_sqrt. reflexivity. Qed.
Lemma q_t2_eq cen o sd r : q_t2 cen o sd r = fdiv (fsub (Bopp (q_b cen o sd)) (fsqrt (q_disc cen o sd r))) (fmul two (@dot S 3 sd sd)).
Proof. rewrite g_t2_eq, g_a_eq, op_div, op_mul, op_add, two_eq, op_sub, op_opp, op_sqrt. reflexivity. Qed.
Lemma q_t0_eq cen o sd : q_t0 cen o sd = fmul (fdiv (Bopp (q_b cen o sd)) two) (@dot S 3 sd sd).
Proof. rewrite g_t0_eq, g_a_eq, op_mul, op_div, op_add, two_eq, op_opp. reflexivity. Qed.
Lemma q_line L cen o sd r : @intersect_sphere_line S L (leps L) (@mkSphere S cen r) (@mkLine S 3 o sd) = q_hits L (fun _ => true) cen o sd r.
Proof. exact (g_line L cen o sd r). Qed.
Lemma q_ray L cen o sd r : @intersect_sphere_ray S L (leps L) (@mkSphere S cen r) (@mkRay S 3 o sd) = q_hits L (fun t => isGreaterEq L (leps L) t zero) cen o sd r.
Proof. exact (g_ray L cen o sd r). Qed.
Lemma q_segment L cen a b r : @intersect_sphere_segment S L (leps L) (@mkSphere S cen r) (@mkSegment S 3 a b) =
  q_hits L (fun t => isGreaterEq L (leps L) t zero && isLessEq L (leps L) t (@s1 S)) cen a (@vsub S 3 b a) r.
Proof. exact (g_segment L cen a b r). Qed.

Context (L : Linal S) (t : R) (HL : LinalF L t).
Context (Hu1 : 1024 * u <= 1) (cen o sd : vec bf 3) (r : bf) (d : vec R 3) (Hd : rdist (vreal sd) d <= u * rnorm d).
Context (Fc : finite_pt cen) (Fo : finite_pt o) (Fs : finite_pt sd) (Fr : is_finite r = true).
Context (HS : sphere_scene e (vreal cen) (B2R r) (vreal o) d).
Let G := reach (vreal cen) (B2R r) (vreal o).
Let DD := discr (vreal cen) (B2R r) (vreal o) d.
Let EE := discr_bound p (vreal cen) (B2R r) (vreal o) d.

Lemma pt_near (T : bf) sl : is_finite T = true ->
  Rabs (rdist (along (vreal o) d (B2R T)) (vreal cen) - Rabs (B2R r)) * Rabs (B2R r) <= sl + 140 * u * (G * G) -> Rabs (B2R T) * rnorm d <= 208 / 100 * G ->
  finite_pt (q_pt o sd T) /\ near_sphere p e (vreal cen) (B2R r) (vreal o) d sl (vreal (q_pt o sd T)) (B2R T).
Proof.
  intros FT HT1 HT2. pose proof (sp_u Hu1) as Hu. 
  destruct (sp_pos cen o r d HS) as (L0 & R0 & RG & G0). fold G in RG, G0.
  destruct (sp_over Hu1 cen o r d HS) as (_ & _ & _ & _ & O & _). fold G in O. destruct (@sp_big e) as (_ & O2 & _). pose proof (bpow_gt_0 radix2 (e - 6)) as B0.
  destruct (sp_scene cen o r d HS) as (_ & _ & _ & _ & _ & No).
  assert (Nsd : rnorm (vreal sd) <= (1 + u) * rnorm d).
  { replace (vreal sd) with (radd d (rsub (vreal sd) d)) by apply radd_rsub. eapply Rle_trans; [apply rnorm_triangle|]. unfold rdist in Hd. lra. }
  assert (F : finite_pt (q_pt o sd T)).
  { apply (point_finite fc fs fa fpi 3 o sd T ltac:(lra) Fo Fs FT No). pose proof (Rabs_pos (B2R T)) as T0.
    assert (Rabs (B2R T) * rnorm (vreal sd) <= Rabs (B2R T) * ((1 + u) * rnorm d)) by (apply Rmult_le_compat_l; assumption).
    assert (0 <= Rabs (B2R T) * rnorm d) by (apply Rmult_le_pos; lra).
    assert (u * (Rabs (B2R T) * rnorm d) <= 1 * (Rabs (B2R T) * rnorm d)) by (apply Rmult_le_compat_r; lra). lra. }
  split; [exact F|]. destruct (point_near fc fs fa fpi 3 o sd d T ltac:(lra) ltac:(lia) Hd F) as (_ & _ & K).
  split; [exact K|]. split; [exact HT1|]. fold G. lra.
Qed.

Definition root_near (T : R) : Prop := Rabs (rdist (along (vreal o) d T) (vreal cen) - Rabs (B2R r)) * Rabs (B2R r) <= 140 * u * (G * G) /\ Rabs T * rnorm d <= 208 / 100 * G.
Lemma sd_disc_err : is_finite (q_disc cen o sd r) = true /\ Rabs (B2R (q_disc cen o sd r) - DD) <= EE.
Proof. rewrite q_disc_eq, q_b_eq. destruct (sp_disc_err fc fs fa fpi Hu1 cen o sd r d Hd Fc Fo Fs Fr HS) as (A & B & _). split; [exact A|exact B]. Qed.
Lemma sd_roots : 0 < B2R (q_disc cen o sd r) ->
  is_finite (q_t1 cen o sd r) = true /\ is_finite (q_t2 cen o sd r) = true /\ root_near (B2R (q_t1 cen o sd r)) /\ root_near (B2R (q_t2 cen o sd r)) /\
  forall tau, rdist (along (vreal o) d tau) (vreal cen) = Rabs (B2R r) -> 0 < DD ->
    Rabs (B2R (q_t1 cen o sd r) - tau) * sqrt DD <= 180 * u * (G * G) \/ Rabs (B2R (q_t2 cen o sd r) - tau) * sqrt DD <= 180 * u * (G * G).
Proof.
  rewrite q_t1_eq, q_t2_eq, q_disc_eq, q_b_eq. intros H. destruct (sp_roots fc fs fa fpi Hu1 cen o sd r d Hd Fc Fo Fs Fr HS H) as (A & B & _ & C & D & W).
  split; [exact A|]. split; [exact B|]. split; [exact C|]. split; [exact D|exact W].
Qed.
Lemma sd_tangent tt : Rabs (B2R (q_disc cen o sd r)) <= tt -> Rabs (rnorm d * rnorm d - 1) <= 8 * u ->
  is_finite (q_t0 cen o sd) = true /\ Rabs (rdist (along (vreal o) d (B2R (q_t0 cen o sd))) (vreal cen) - Rabs (B2R r)) * Rabs (B2R r) <= tt / 3 + 140 * u * (G * G) /\
  Rabs (B2R (q_t0 cen o sd)) * rnorm d <= 208 / 100 * G.
Proof. rewrite q_t0_eq, q_disc_eq, q_b_eq. exact (sp_tangent fc fs fa fpi Hu1 cen o sd r d Hd Fc Fo Fs Fr HS tt). Qed.

Section KP.
Context (keep : bf -> bool) (ok sure : R -> Prop).
Context (Hok : forall T, is_finite T = true -> keep T = true -> ok (B2R T)).
Context (Hsure : forall T, is_finite T = true -> sure (B2R T) -> keep T = true).

Lemma sphere_sound q : reported (q_hits L keep cen o sd r) q ->
  forall sl, t + EE < Rabs DD /\ sl = 0 \/ Rabs (rdot d d - 1) <= 8 * u /\ sl = t / 3 ->
  finite_pt q /\ exists T, ok T /\ near_sphere p e (vreal cen) (B2R r) (vreal o) d sl (vreal q) T.
Proof.
  intros Hq sl Hsl. destruct sd_disc_err as (FD & ED). pose proof (lf_slack _ _ HL) as t0.
  assert (sl0 : 0 <= sl) by (destruct Hsl as [(_ & ->)|(_ & ->)]; lra).
  unfold g_hits in Hq. cbv zeta in Hq. change (@s0 S) with zero in Hq. destruct (isGreater L (leps L) (q_disc cen o sd r) zero) eqn:Gr.
  - apply (lf_greater_1 _ _ HL (q_disc cen o sd r) zero FD eq_refl) in Gr. change (B2R zero) with 0 in Gr.
    destruct (sd_roots Gr) as (F1 & F2 & R1 & R2 & _).
    destruct R1 as (R11 & R12), R2 as (R21 & R22).
    destruct Hq as [Hq|Hq]; cbn [fst snd] in Hq.
    + destruct (keep (q_t1 cen o sd r)) eqn:K; [|discriminate Hq]. apply (f_equal (fun x => match x with Some y => y | None => q end)) in Hq. cbn beta iota in Hq. subst q.
      destruct (pt_near (q_t1 cen o sd r) sl F1 ltac:(lra) R12) as (P1 & P2). split; [exact P1|]. exists (B2R (q_t1 cen o sd r)). split; [apply (Hok _ F1 K)|exact P2].
    + destruct (keep (q_t2 cen o sd r)) eqn:K; [|discriminate Hq]. apply (f_equal (fun x => match x with Some y => y | None => q end)) in Hq. cbn beta iota in Hq. subst q.
      destruct (pt_near (q_t2 cen o sd r) sl F2 ltac:(lra) R22) as (P1 & P2). split; [exact P1|]. exists (B2R (q_t2 cen o sd r)). split; [apply (Hok _ F2 K)|exact P2].
  - destruct (isZero L (leps L) (q_disc cen o sd r)) eqn:Z; [|destruct Hq as [Hq|Hq]; discriminate Hq].
    apply (lf_zero_1 _ _ HL _ FD) in Z.
    destruct Hsl as [(Hsl & _)|(Hu & Esl)].
    { exfalso. apply Rabs_le_inv in ED, Z. assert (Rabs DD <= t + EE) by (apply Rabs_le; lra). lra. }
    rewrite <- (rnorm_sq d) in Hu.
    destruct (sd_tangent t Z Hu) as (F0 & R1 & R2).
    rewrite <- Esl in R1.
    destruct (keep (q_t0 cen o sd)) eqn:K; [|destruct Hq as [Hq|Hq]; discriminate Hq].
    destruct Hq as [Hq|Hq]; cbn [fst snd] in Hq; [|discriminate Hq]. apply (f_equal (fun x => match x with Some y => y | None => q end)) in Hq. cbn beta iota in Hq. subst q.
    destruct (pt_near (q_t0 cen o sd) sl F0 R1 R2) as (P1 & P2). split; [exact P1|]. exists (B2R (q_t0 cen o sd)). split; [apply (Hok _ F0 K)|exact P2].
Qed.

Lemma sphere_complete tau : t + EE < DD -> rdist (along (vreal o) d tau) (vreal cen) = Rabs (B2R r) ->
  (forall T, Rabs (T - tau) * sqrt DD <= 180 * u * (G * G) -> sure T) ->
  exists q T, reported (q_hits L keep cen o sd r) q /\ near_sphere p e (vreal cen) (B2R r) (vreal o) d 0 (vreal q) T /\
    Rabs (T - tau) * sqrt DD <= 180 * u * (G * G).
Proof.
  intros HD Ht HT. destruct sd_disc_err as (FD & ED). pose proof (lf_slack _ _ HL) as t0.
  assert (E0 : 0 <= EE) by (eapply Rle_trans; [apply Rabs_pos|exact ED]).
  assert (Gr : isGreater L (leps L) (q_disc cen o sd r) zero = true).
  { apply (lf_greater_0 _ _ HL (q_disc cen o sd r) zero FD eq_refl). change (B2R zero) with 0. apply Rabs_le_inv in ED. lra. }
  assert (Pos : 0 < B2R (q_disc cen o sd r)) by (apply Rabs_le_inv in ED; lra).
  destruct (sd_roots Pos) as (F1 & F2 & R1 & R2 & W). specialize (W tau Ht ltac:(lra)).
  destruct R1 as (R11 & R12), R2 as (R21 & R22).
  unfold g_hits. cbv zeta. change (@s0 S) with zero. rewrite Gr. destruct W as [W|W].
  - exists (q_pt o sd (q_t1 cen o sd r)), (B2R (q_t1 cen o sd r)). rewrite (Hsure _ F1 (HT _ W)). split; [left; reflexivity|]. split; [|exact W]. apply pt_near; [exact F1|lra|exact R12].
  - exists (q_pt o sd (q_t2 cen o sd r)), (B2R (q_t2 cen o sd r)). rewrite (Hsure _ F2 (HT _ W)). split; [right; reflexivity|]. split; [|exact W]. apply pt_near; [exact F2|lra|exact R22].
Qed.

Lemma sphere_missed : DD < - (t + EE) -> q_hits L keep cen o sd r = (None, None).
Proof.
  intros HD. destruct sd_disc_err as (FD & ED). pose proof (lf_slack _ _ HL) as t0. apply Rabs_le_inv in ED.
  unfold g_hits. cbv zeta. change (@s0 S) with zero. destruct (isGreater L (leps L) (q_disc cen o sd r) zero) eqn:Gr.
  - exfalso. apply (lf_greater_1 _ _ HL (q_disc cen o sd r) zero FD eq_refl) in Gr. change (B2R zero) with 0 in Gr. lra.
  - destruct (isZero L (leps L) (q_disc cen o sd r)) eqn:Z; [|reflexivity]. exfalso. apply (lf_zero_1 _ _ HL _ FD) in Z. apply Rabs_le_inv in Z. lra.
Qed.
End KP.
End SG.

(** ** C74: lines.  Every point reported is nearly on the line and nearly on the
    sphere, provided the line is not nearly tangent or its direction has length one (up
    to rounding); if the line clearly crosses the sphere, both common points are
    approximated by reported points; if it clearly passes by, nothing is reported. *)
Theorem C74_sphere_line :
  forall (p e : Z) (Hp : Prec_gt_0 p) (He : Prec_lt_emax p e) f g h pi, let S := IEEE p e Hp He f g h pi in
  forall (L : Linal S) (t : R), LinalF L t -> 1024 * uround p <= 1 ->
  forall (cen o d : vec (binary_float p e) 3) (r : binary_float p e),
    finite_pt cen -> finite_pt o -> finite_pt d -> is_finite r = true ->
    sphere_scene e (vreal cen) (B2R r) (vreal o) (vreal d) ->
    let hits := @intersect_sphere_line S L (leps L) (@mkSphere S cen r) (@mkLine S 3 o d) in
    let near := near_sphere p e (vreal cen) (B2R r) (vreal o) (vreal d) in
    let D := discr (vreal cen) (B2R r) (vreal o) (vreal d) in let E := discr_bound p (vreal cen) (B2R r) (vreal o) (vreal d) in
    let G := reach (vreal cen) (B2R r) (vreal o) in
    (forall q, reported hits q -> forall sl, t + E < Rabs D /\ sl = 0 \/ Rabs (rdot (vreal d) (vreal d) - 1) <= 8 * uround p /\ sl = t / 3 ->
       finite_pt q /\ exists T, near sl (vreal q) T) /\
    (forall tau, t + E < D -> rdist (along (vreal o) (vreal d) tau) (vreal cen) = Rabs (B2R r) ->
       exists q T, reported hits q /\ near 0 (vreal q) T /\ Rabs (T - tau) * sqrt D <= 180 * uround p * (G * G)) /\
    (D < - (t + E) -> hits = (None, None)).
Proof.
  intros p e Hp He f g h pi S L t HL Hu1 cen o d r Fc Fo Fd Fr HS hits near D E G. pose proof (q_line f g h pi L cen o d r : hits = _) as Hh. clearbody hits. subst hits.
  pose proof (rdist_self_le 3 (uround p) (vreal d) ltac:(left; apply u_pos)) as Hd. split; [|split].
  - intros q Hq sl Hsl. destruct (sphere_sound f g h pi L t HL Hu1 cen o d r (vreal d) Hd Fc Fo Fd Fr HS (fun _ => true) (fun _ => True) (fun _ _ _ => I) q Hq sl Hsl) as (Fq & T & _ & N).
    split; [exact Fq|]. exists T. exact N.
  - intros tau HD Ht. apply (sphere_complete f g h pi L t HL Hu1 cen o d r (vreal d) Hd Fc Fo Fd Fr HS (fun _ => true) (fun _ => True) (fun _ _ _ => eq_refl) tau HD Ht (fun _ _ => I)).
  - intros HD. exact (sphere_missed f g h pi L t HL Hu1 cen o d r (vreal d) Hd Fc Fo Fd Fr HS (fun _ => true) HD).
Qed.
Print Assumptions C74_sphere_line.

(** rays: the parameters are not negative (up to the tolerance); the common points
    that are clearly after the origin are approximated by reported points *)
Theorem C74_sphere_ray :
  forall (p e : Z) (Hp : Prec_gt_0 p) (He : Prec_lt_emax p e) f g h pi, let S := IEEE p e Hp He f g h pi in
  forall (L : Linal S) (t : R), LinalF L t -> 1024 * uround p <= 1 ->
  forall (cen o d : vec (binary_float p e) 3) (r : binary_float p e),
    finite_pt cen -> finite_pt o -> finite_pt d -> is_finite r = true ->
    sphere_scene e (vreal cen) (B2R r) (vreal o) (vreal d) ->
    let hits := @intersect_sphere_ray S L (leps L) (@mkSphere S cen r) (@mkRay S 3 o d) in
    let near := near_sphere p e (vreal cen) (B2R r) (vreal o) (vreal d) in
    let D := discr (vreal cen) (B2R r) (vreal o) (vreal d) in let E := discr_bound p (vreal cen) (B2R r) (vreal o) (vreal d) in
    let G := reach (vreal cen) (B2R r) (vreal o) in
    (forall q, reported hits q -> forall sl, t + E < Rabs D /\ sl = 0 \/ Rabs (rdot (vreal d) (vreal d) - 1) <= 8 * uround p /\ sl = t / 3 ->
       finite_pt q /\ exists T, - t <= T /\ near sl (vreal q) T) /\
    (forall tau, t + E < D -> rdist (along (vreal o) (vreal d) tau) (vreal cen) = Rabs (B2R r) ->
       180 * uround p * (G * G) <= tau * sqrt D ->
       exists q T, reported hits q /\ near 0 (vreal q) T /\ Rabs (T - tau) * sqrt D <= 180 * uround p * (G * G)) /\
    (D < - (t + E) -> hits = (None, None)).
Proof.
  intros p e Hp He f g h pi S L t HL Hu1 cen o d r Fc Fo Fd Fr HS hits near D E G. pose proof (q_ray f g h pi L cen o d r : hits = _) as Hh. clearbody hits. subst hits.
  set (keep := fun T : binary_float p e => isGreaterEq L (leps L) T (B754_zero false : binary_float p e)).
  pose proof (rdist_self_le 3 (uround p) (vreal d) ltac:(left; apply u_pos)) as Hd.
  assert (Hok : forall T, is_finite T = true -> keep T = true -> - t <= B2R T).
  { intros T FT K. apply (lf_greatereq_1 _ _ HL T (B754_zero false) FT eq_refl) in K. change (B2R (B754_zero false : binary_float p e)) with 0 in K. lra. }
  assert (Hsure : forall T, is_finite T = true -> 0 <= B2R T -> keep T = true) by (intros T FT K; apply (lf_greatereq_0 _ _ HL T (B754_zero false) FT eq_refl); exact K).
  split; [|split].
  - intros q Hq sl Hsl. exact (sphere_sound f g h pi L t HL Hu1 cen o d r (vreal d) Hd Fc Fo Fd Fr HS keep (fun x => - t <= x) Hok q Hq sl Hsl).
  - intros tau HD Ht Hlt. apply (sphere_complete f g h pi L t HL Hu1 cen o d r (vreal d) Hd Fc Fo Fd Fr HS keep (fun x => 0 <= x) Hsure tau HD Ht).
    intros T K. fold D G in K. assert (E0 : 0 <= E) by apply discr_bound_pos.
    pose proof (lf_slack _ _ HL) as t0. assert (q0 : 0 < sqrt D) by (apply sqrt_lt_R0; fold D E in HD; lra).
    assert (K1 : Rabs (T - tau) <= tau) by (apply Rmult_le_reg_r with (sqrt D); lra). apply Rabs_le_inv in K1. lra.
  - intros HD. exact (sphere_missed f g h pi L t HL Hu1 cen o d r (vreal d) Hd Fc Fo Fd Fr HS keep HD).
Qed.
Print Assumptions C74_sphere_ray.

(** segments from [a] to [b]; the direction is the exact difference.  Missing are the
    nearly tangent segments, for which the claim fails already without rounding
    (C23_tangent_segment_missed_refuted, C23_tangent_segment_sound_refuted). *)
Theorem C74_sphere_segment_partial :
  forall (p e : Z) (Hp : Prec_gt_0 p) (He : Prec_lt_emax p e) f g h pi, let S := IEEE p e Hp He f g h pi in
  forall (L : Linal S) (t : R), LinalF L t -> 1024 * uround p <= 1 ->
  forall (cen a b : vec (binary_float p e) 3) (r : binary_float p e),
    finite_pt cen -> finite_pt a -> finite_pt b -> is_finite r = true -> let d := rsub (vreal b) (vreal a) in
    sphere_scene e (vreal cen) (B2R r) (vreal a) d ->
    let hits := @intersect_sphere_segment S L (leps L) (@mkSphere S cen r) (@mkSegment S 3 a b) in
    let near := near_sphere p e (vreal cen) (B2R r) (vreal a) d in
    let D := discr (vreal cen) (B2R r) (vreal a) d in let E := discr_bound p (vreal cen) (B2R r) (vreal a) d in
    let G := reach (vreal cen) (B2R r) (vreal a) in
    (forall q, reported hits q -> t + E < Rabs D -> finite_pt q /\ exists T, - t <= T <= 1 + t /\ near 0 (vreal q) T) /\
    (forall tau, t + E < D -> rdist (along (vreal a) d tau) (vreal cen) = Rabs (B2R r) ->
       180 * uround p * (G * G) <= tau * sqrt D -> 180 * uround p * (G * G) <= (1 - tau) * sqrt D ->
       exists q T, reported hits q /\ near 0 (vreal q) T /\ Rabs (T - tau) * sqrt D <= 180 * uround p * (G * G)) /\
    (D < - (t + E) -> hits = (None, None)).
Proof.
  intros p e Hp He f g h pi S L t HL Hu1 cen a b r Fc Fa Fb Fr d HS hits near D E G. pose proof (q_segment f g h pi L cen a b r : hits = _) as Hh. clearbody hits. subst hits.
  set (keep := fun T : binary_float p e => isGreaterEq L (leps L) T (B754_zero false : binary_float p e) && isLessEq L (leps L) T (@s1 S)).
  pose proof (@one_spec p e Hp He) as [F1 E1]. change (ieee_pow p e Hp He 1 0) with (@s1 S) in F1, E1.
  pose proof (sp_u Hu1) as Hu. 
  assert (Ffd : finite_pt (@vsub S 3 b a : vec (binary_float p e) 3)).
  { apply (sub_finite_near f g h pi 3 b a); [lra|exact Fb|exact Fa|]. change (rnorm d <= bpow radix2 (e - 2)).
    destruct (sp_over Hu1 cen a r d HS) as (O & _). destruct (@sp_big e) as (_ & _ & O2 & _). pose proof (sp_e Hu1) as E5.
    assert (B1 : 1 <= bpow radix2 (e - 6)) by (change 1 with (bpow radix2 0); apply bpow_le; lia).
    assert (K : Rabs (rnorm d) <= bpow radix2 (e - 2)); [|rewrite Rabs_pos_eq in K by apply rnorm_nonneg; exact K].
    apply abs_le_of_sq; [apply bpow_ge_0|]. rewrite O2. assert (1 * bpow radix2 (e - 6) <= bpow radix2 (e - 6) * bpow radix2 (e - 6)) by (apply Rmult_le_compat_r; lra). lra. }
  pose proof (sub_err f g h pi 3 b a Fb Fa Ffd) as Hd. change (rdist (vreal b) (vreal a)) with (rnorm d) in Hd. fold d in Hd. fold S in Hd.
  assert (Hok : forall T, is_finite T = true -> keep T = true -> - t <= B2R T <= 1 + t).
  { intros T FT K. unfold keep in K. apply andb_prop in K as [K K2]. apply (lf_greatereq_1 _ _ HL T (B754_zero false) FT eq_refl) in K. change (B2R (B754_zero false : binary_float p e)) with 0 in K.
    apply (lf_lesseq_1 _ _ HL T (@s1 S) FT F1) in K2. rewrite E1 in K2. lra. }
  assert (Hsure : forall T, is_finite T = true -> 0 <= B2R T <= 1 -> keep T = true).
  { intros T FT [K K2]. unfold keep. apply andb_true_intro. split; [exact (lf_greatereq_0 _ _ HL T (B754_zero false) FT eq_refl K)|]. apply (lf_lesseq_0 _ _ HL T (@s1 S) FT F1). rewrite E1. exact K2. }
  split; [|split].
  - intros q Hq Hsl. exact (sphere_sound f g h pi L t HL Hu1 cen a _ r d Hd Fc Fa Ffd Fr HS keep (fun x => - t <= x <= 1 + t) Hok q Hq 0 (or_introl (conj Hsl eq_refl))).
  - intros tau HD Ht Hlt Hlt2. apply (sphere_complete f g h pi L t HL Hu1 cen a _ r d Hd Fc Fa Ffd Fr HS keep (fun x => 0 <= x <= 1) Hsure tau HD Ht).
    intros T K. fold D G in K. assert (E0 : 0 <= E) by apply discr_bound_pos.
    pose proof (lf_slack _ _ HL) as t0. assert (q0 : 0 < sqrt D) by (apply sqrt_lt_R0; fold D E in HD; lra).
    assert (K1 : Rabs (T - tau) <= tau) by (apply Rmult_le_reg_r with (sqrt D); lra). assert (K2 : Rabs (T - tau) <= 1 - tau) by (apply Rmult_le_reg_r with (sqrt D); lra).
    apply Rabs_le_inv in K1, K2. lra.
  - intros HD. exact (sphere_missed f g h pi L t HL Hu1 cen a _ r d Hd Fc Fa Ffd Fr HS keep HD).
Qed.
Print Assumptions C74_sphere_segment_partial.

(** Without the bounds on the scene it fails: the line through the centre of the sphere
    around 0 with radius 2^600, starting at (-2^601, 0, 0), is not reported at all
    (overflow); the one of the sphere with radius 2^-600, starting at (-2^-599, 0, 0),
    is taken for a tangent, so that at most one point is reported (underflow: the squares
    vanish). *)
Theorem C74_range_refuted :
  forall f g h pi, let S := B64 f g h pi in let z := b64_ofZ 0 in
  forall k, k = 600%Z \/ k = (-600)%Z ->
  let o : vec b64 3 := mk3 (b64_pow (-2) k) z z in let d : vec b64 3 := mk3 (b64_ofZ 1) z z in let c : vec b64 3 := mk3 z z z in let r := b64_pow 1 k in
  finite_pt o /\ finite_pt d /\ finite_pt c /\ is_finite r = true /\
  (exists T, rdist (along (vreal o) (vreal d) T) (vreal c) = Rabs (B2R r) /\ 0 < discr (vreal c) (B2R r) (vreal o) (vreal d)) /\
  forall L : Linal S, L = raw_linal S z \/ L = tol_linal S (b64_pow 1 (-30)) ->
    let hits := @intersect_sphere_line S L (leps L) (@mkSphere S c r) (@mkLine S 3 o d) in
    is_some (snd hits) = false /\ (k = 600%Z -> is_some (fst hits) = false).
Proof.
  intros f g h pi S z k Hk o d c r. destruct (b64_small 0 eq_refl) as (F0 & E0), (b64_small 1 eq_refl) as (F1 & E1). fold z in F0, E0.
  assert (B : (-1074 <= k <= 900)%Z) by lia.
  destruct (@pow_spec 53 1024 prec53 prec_emax64 1 k eq_refl ltac:(lia) ltac:(lia)) as [Fr Er]. change (ieee_pow 53 1024 prec53 prec_emax64 1 k) with r in Fr, Er.
  destruct (@pow_spec 53 1024 prec53 prec_emax64 (-2) k eq_refl ltac:(lia) ltac:(lia)) as [Fm Em]. change (ieee_pow 53 1024 prec53 prec_emax64 (-2) k) with (b64_pow (-2) k) in Fm, Em.
  set (m := b64_pow (-2) k) in *. rewrite Rmult_1_l in Er. set (x := bpow radix2 k) in *. assert (x0 : 0 < x) by apply bpow_gt_0.
  split; [intros [|[|[|i]]] Hi; try lia; assumption|]. split; [intros [|[|[|i]]] Hi; try lia; assumption|]. split; [intros [|[|[|i]]] Hi; try lia; assumption|]. split; [exact Fr|].
  assert (Eo : vreal o = mk3 (- 2 * x) 0 0) by (change (vreal o) with (mk3 (B2R m) (B2R z) (B2R z)); rewrite E0, Em; reflexivity).
  assert (Ed : vreal d = mk3 1 0 0) by (change (vreal d) with (mk3 (B2R (b64_ofZ 1)) (B2R z) (B2R z)); rewrite E0, E1; reflexivity).
  assert (Ec : vreal c = mk3 0 0 0) by (change (vreal c) with (mk3 (B2R z) (B2R z) (B2R z)); rewrite E0; reflexivity).
  split.
  - exists x. rewrite Eo, Ed, Ec, Er, (Rabs_pos_eq x) by lra. split.
    + unfold rdist, rnorm. replace (rdot _ _) with (x * x); [apply sqrt_square; lra|]. unfold along, rdot, rsub, radd, rscale, mk3. cbn. ring.
    + unfold discr, rdot, rsub, mk3. cbn. assert (0 < x * x) by (apply Rmult_lt_0_compat; lra).
      match goal with |- 0 < ?y => replace y with (4 * (x * x)) by ring end. lra.
  - intros L HL. destruct Hk as [-> | ->], HL as [-> | ->]; (split; [vm_compute; reflexivity|]); intros; try discriminate; vm_compute; reflexivity.
Qed.
Print Assumptions C74_range_refuted.

(** the unit sphere around 0, met by the line (the ray, the segment to (4,0,0)) from (-2,0,0) *)
Example C74_example : forall f g h pi, let S := B64 f g h pi in
  let z := b64_ofZ 0 in let c := mk3 z z z in let a := mk3 (b64_ofZ (-2)) z z in let b := mk3 (b64_ofZ 4) z z in let v := mk3 (b64_ofZ 1) z z in
  LinalF (raw_linal S z) 0 /\ 1024 * uround 53 <= 1 /\ finite_pt c /\ finite_pt a /\ finite_pt b /\ finite_pt v /\ is_finite (b64_ofZ 1) = true /\
  Rabs (rdot (vreal v) (vreal v) - 1) <= 8 * uround 53 /\
  forall d, d = vreal v \/ d = rsub (vreal b) (vreal a) ->
  sphere_scene 1024 (vreal c) (B2R (b64_ofZ 1)) (vreal a) d /\
  let D := discr (vreal c) (B2R (b64_ofZ 1)) (vreal a) d in
  0 + discr_bound 53 (vreal c) (B2R (b64_ofZ 1)) (vreal a) d < D /\
  let G := reach (vreal c) (B2R (b64_ofZ 1)) (vreal a) in
  exists tau, rdist (along (vreal a) d tau) (vreal c) = Rabs (B2R (b64_ofZ 1)) /\ 180 * uround 53 * (G * G) <= tau * sqrt D /\
    (d <> vreal v -> 180 * uround 53 * (G * G) <= (1 - tau) * sqrt D).
Proof.
  intros f g h pi S z c a b v.
  destruct (b64_small 0 eq_refl) as (F0 & E0), (b64_small 1 eq_refl) as (F1 & E1), (b64_small 4 eq_refl) as (F4 & E4), (b64_small (-2) eq_refl) as (F2 & E2). fold z in F0, E0.
  assert (Hu : 0 < uround 53 <= 1 / 4096 * (1 / 4096)). { split; [apply bpow_gt_0|]. apply Rle_trans with (bpow radix2 (-24)); [apply bpow_le; lia|cbn; lra]. }
  assert (HB : 4096 <= bpow radix2 (1024 - 6)) by (change 4096 with (bpow radix2 12); apply bpow_le; lia).
  assert (HB3 : 64 <= bpow radix2 (1024 - 3)) by (change 64 with (bpow radix2 6); apply bpow_le; lia).
  assert (HB2 : bpow radix2 (2 - 1024) <= 1) by (change 1 with (bpow radix2 0); apply bpow_le; lia).
  assert (Ea : vreal a = mk3 (-2) 0 0) by (change (vreal a) with (mk3 (B2R (b64_ofZ (-2))) (B2R z) (B2R z)); now rewrite E0, E2).
  assert (Ec : vreal c = mk3 0 0 0) by (change (vreal c) with (mk3 (B2R z) (B2R z) (B2R z)); now rewrite E0).
  assert (Ev : vreal v = mk3 1 0 0) by (change (vreal v) with (mk3 (B2R (b64_ofZ 1)) (B2R z) (B2R z)); now rewrite E0, E1).
  assert (Ed : rsub (vreal b) (vreal a) = mk3 6 0 0). { rewrite Ea. change (vreal b) with (mk3 (B2R (b64_ofZ 4)) (B2R z) (B2R z)). rewrite E0, E4. unfold rsub, mk3. cbn [vmap2 fst snd]. repeat (apply f_equal2; [ring|]). reflexivity. }
  assert (NX : forall x, rnorm (mk3 x 0 0) = Rabs x). { intros x. unfold rnorm, rdot, mk3. cbn. replace (x * x + (0 * 0 + (0 * 0 + 0))) with (Rsqr x) by (unfold Rsqr; ring). apply sqrt_Rsqr_abs. }
  assert (DX : forall x y, rdist (mk3 x 0 0) (mk3 y 0 0) = Rabs (x - y)).
  { intros x y. unfold rdist. replace (rsub (mk3 x 0 0) (mk3 y 0 0)) with (mk3 (x - y) 0 0); [apply NX|]. unfold rsub, mk3. cbn. repeat (apply f_equal2; [ring|]). reflexivity. }
  assert (AX : forall x y k, along (mk3 x 0 0) (mk3 y 0 0) k = mk3 (x + k * y) 0 0).
  { intros x y k. unfold along, radd, rscale, mk3. cbn. repeat (apply f_equal2; [ring|]). reflexivity. }
  assert (DT : forall x y, rdot (mk3 x 0 0) (mk3 y 0 0) = x * y) by (intros; unfold rdot, mk3; cbn; ring).
  assert (SX : forall x y, rsub (mk3 x 0 0) (mk3 y 0 0) = mk3 (x - y) 0 0) by (intros; unfold rsub, mk3; cbn; repeat (apply f_equal2; [ring|]); reflexivity).
  split; [exact (raw_linal_F f g h pi z)|]. split; [lra|].
  split; [intros [|[|[|i]]] Hi; try lia; assumption|]. split; [intros [|[|[|i]]] Hi; try lia; assumption|]. split; [intros [|[|[|i]]] Hi; try lia; assumption|].
  split; [intros [|[|[|i]]] Hi; try lia; assumption|]. split; [exact F1|].
  split. { rewrite Ev, DT. replace (1 * 1 - 1) with 0 by ring. rewrite Rabs_R0. lra. }
  intros d Hd. assert (K : exists k, (k = 1 \/ k = 6) /\ d = mk3 k 0 0) by (destruct Hd as [->| ->]; [exists 1|exists 6]; split; auto).
  destruct K as (k & Hk & ->). clear Hd. unfold sphere_scene, reach, discr, discr_bound, reach. cbv zeta. rewrite Ea, Ec, E1, !SX, !DX, !DT, NX, (Rabs_pos_eq 1) by lra.
  replace (Rabs (-2 - 0)) with 2 by (rewrite Rabs_left; lra). replace (Rabs (-2)) with 2 by (rewrite Rabs_left; lra).
  match goal with |- _ /\ _ /\ (exists tau, _ /\ _ <= tau * sqrt ?X /\ _) => replace X with ((2 * k) * (2 * k)) by ring end. rewrite sqrt_square by (destruct Hk; subst k; lra).
  assert (Kk : 1 <= k * k <= 36) by (destruct Hk; subst k; lra). set (kk := k * k) in *.
  split; [repeat split; lra|]. split.
  { replace (2 * k * (2 * k)) with (4 * kk) by (unfold kk; ring). assert (uround 53 * kk <= 1 / 4096 * kk) by (apply Rmult_le_compat_r; lra). lra. }
  exists (1 / k). rewrite AX, DX. replace (-2 + 1 / k * k - 0) with (- (1)) by (field; destruct Hk; lra). rewrite Rabs_Ropp, (Rabs_pos_eq 1) by lra.
  split; [reflexivity|]. split.
  - replace (1 / k * (2 * k)) with 2 by (field; destruct Hk; lra). lra.
  - intros N. destruct Hk as [-> | ->]; [exfalso; apply N; symmetry; exact Ev|]. lra.
Qed.
