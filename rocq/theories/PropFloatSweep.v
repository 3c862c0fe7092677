(** * Property theorems: the sweep over line segments in floating point (C78) *)

From Coq Require Import List Arith Bool Lia Permutation Sorted ZArith Reals Lra FunctionalExtensionality.
From Flocq Require Import Core BinarySingleNaN.
From Verif Require Import Scalar Linal Result SpecReal VecR VecLemmas SpecIEEE SpecFloatErr SpecFloatPlane ModelShapes ModelIntersect ModelMesh ModelSweep SpecTess SpecSweep SpecFloatSweep
  ProofRound ProofIEEE ProofBoxIEEE ProofFloatErr ProofFloatNorm ProofFloatDist ProofFloatTransform ProofFloatPlane ProofFloatCross ProofFloatSphere PropFloatTess PropFloatPlane PropFloatCross
  ProofMesh ProofIntersect PropIntersect ProofSweep ProofSweepReal ProofSweepTwo ProofSweepRun PropSweep ProofFloatSweep.
Import ListNotations.
Local Open Scope R_scope.

(** ** What clear scenes say about the exact segments *)
Section Exact.
Context {p e : Z} {M : R}.
Implicit Types s : segment (RS M) 2.

Lemma param_bound_nonneg (a d a' d' : vec R 2) T : 0 <= Rabs (det2 d d') - slope_bound p e (perp d') d -> 0 <= param_bound p e a d a' d' T.
Proof.
  intros H. unfold param_bound. apply Rmult_le_pos.
  - unfold plane_bound. pose proof (@u_pos p) as Hu. pose proof (@eta_pos p e) as Hh. change (@ProofFloatErr.eta p e) with (uflow p e) in *.
    pose proof (Rabs_pos T). pose proof (rnorm_nonneg (perp d')). pose proof (rnorm_nonneg d). assert (0 <= rdist a' a) by apply rnorm_nonneg.
    apply Rplus_le_le_0_compat; apply Rmult_le_pos; try lra.
    + apply Rmult_le_pos; lra.
    + apply Rplus_le_le_0_compat; [apply Rmult_le_pos; assumption|assumption].
    + assert (0 <= rnorm d * rnorm (perp d')) by (apply Rmult_le_pos; assumption). lra.
  - destruct H as [H|H]; [left; apply Rinv_0_lt_compat, H|]. rewrite <- H, Rinv_0. lra.
Qed.
Lemma slope_nonneg (d d' : vec R 2) : 0 <= slope_bound p e (perp d') d.
Proof.
  unfold slope_bound. pose proof (@u_pos p) as Hu. pose proof (@eta_pos p e) as Hh. change (@ProofFloatErr.eta p e) with (uflow p e) in *.
  assert (0 <= rnorm d * rnorm (perp d')) by (apply Rmult_le_pos; apply rnorm_nonneg). assert (0 <= uround p * (rnorm d * rnorm (perp d'))) by (apply Rmult_le_pos; lra). lra.
Qed.
Lemma height_bound_nonneg s x : 0 <= height_bound p e s x.
Proof.
  unfold height_bound. pose proof (@u_pos p) as Hu. pose proof (@eta_pos p e) as Hh. change (@ProofFloatErr.eta p e) with (uflow p e) in *.
  apply Rplus_le_le_0_compat; apply Rmult_le_pos; try lra.
  - assert (0 <= climb s x) by apply Rabs_pos. pose proof (Rabs_pos (fst (snd (g_source s : vec R 2)))). lra.
  - assert (0 <= 3 / Rabs (run s)); [|lra]. apply Rmult_le_pos; [lra|]. destruct (Req_dec (run s) 0) as [E|E]; [rewrite E, Rabs_R0, Rinv_0; lra|].
    left. apply Rinv_0_lt_compat, Rabs_pos_lt, E.
Qed.

(** the parameters of a common point of two crossing lines are unique *)
Lemma params_unique (a d a' d' : vec R 2) T T' x x' : det2 d d' <> 0 -> along a d T = along a' d' T' -> along a d x = along a' d' x' -> T = x /\ T' = x'.
Proof.
  destruct a as (a0 & a1 & []), d as (d0 & d1 & []), a' as (b0 & b1 & []), d' as (e0 & e1 & []). unfold along, det2, radd, rscale. cbn. intros HD E1 E2.
  injection E1 as P1 P2. injection E2 as Q1 Q2.
  assert (K1 : (T - x) * (d0 * e1 - d1 * e0) = 0).
  { replace ((T - x) * (d0 * e1 - d1 * e0)) with ((a0 + T * d0 - (a0 + x * d0)) * e1 - (a1 + T * d1 - (a1 + x * d1)) * e0) by ring. rewrite P1, P2, Q1, Q2. ring. }
  assert (K2 : (T' - x') * (d0 * e1 - d1 * e0) = 0).
  { replace ((T' - x') * (d0 * e1 - d1 * e0)) with (d0 * (b1 + T' * e1 - (b1 + x' * e1)) - d1 * (b0 + T' * e0 - (b0 + x' * e0))) by ring. rewrite <- P1, <- P2, <- Q1, <- Q2. ring. }
  apply Rmult_integral in K1, K2. split; [destruct K1|destruct K2]; lra.
Qed.

Notation L0 := (raw_linal (RS M) 0).
Let HL0 : LinalR L0 := raw_linal_R M 0 (Rle_refl 0).

Lemma exact_hit dbg s s' T T' : let a := g_source s : vec R 2 in let d := rsub (g_target s) a in let a' := g_source s' : vec R 2 in let d' := rsub (g_target s') a' in
  det2 d d' <> 0 -> along a d T = along a' d' T' -> 0 <= T <= 1 -> 0 <= T' <= 1 ->
  intersect_segment2 L0 dbg (leps L0) s s' = Ok (Some (along a d T)).
Proof.
  intros a d a' d' HD Hx HT HT'. apply (segment2_complete HL0 0 (Rle_refl 0) dbg s s' (along a d T) (raw_veq_refl M 0)).
  - apply Rabs_pos_lt, HD.
  - exists T. split; [exact HT|reflexivity].
  - exists T'. split; [exact HT'|exact Hx].
Qed.
Lemma exact_miss dbg s s' T T' : let a := g_source s : vec R 2 in let d := rsub (g_target s) a in let a' := g_source s' : vec R 2 in let d' := rsub (g_target s') a' in
  det2 d d' <> 0 -> along a d T = along a' d' T' -> ~ (0 <= T <= 1 /\ 0 <= T' <= 1) ->
  intersect_segment2 L0 dbg (leps L0) s s' = Ok None.
Proof.
  intros a d a' d' HD Hx HN. destruct (segment2_total HL0 0 (Rle_refl 0) dbg s s' (raw_veq_refl M 0)) as ([q|] & E); [exfalso|exact E].
  apply (segment2_sound HL0 0 (Rle_refl 0)) in E as (x & y & Hx1 & Hy1 & E1 & E2).
  destruct (params_unique a d a' d' T T' x y HD Hx) as (-> & ->); [exact (eq_trans (eq_sym E1) E2)|]. apply HN. lra.
Qed.
Lemma exact_parallel dbg s s' : det2 (rsub (g_target s : vec R 2) (g_source s)) (rsub (g_target s' : vec R 2) (g_source s')) = 0 ->
  intersect_segment2 L0 dbg (leps L0) s s' = Ok None.
Proof.
  intros E. pose proof (segment2_R (L := L0) (leps L0) dbg s s') as U. cbv zeta in U. rewrite U, E.
  assert (Z : isZero L0 (leps L0) 0 = true) by (cbn; unfold Reqb; destruct (Req_EM_T 0 0); [reflexivity|congruence]).
  rewrite Z. reflexivity.
Qed.

Lemma first_x_lr s s' : left_to_right s -> left_to_right s' -> first_x s s' = Rmax (fst (g_source s : vec R 2)) (fst (g_source s' : vec R 2)).
Proof. unfold left_to_right, first_x. intros H H'. exact (f_equal2 Rmax (Rmin_left _ _ (Rlt_le _ _ H)) (Rmin_left _ _ (Rlt_le _ _ H'))). Qed.

(** a clear scene is in general position *)
Lemma clear_general (t w : R) (segs : list (segment (RS M) 2)) : 0 <= t -> clear_scene p e t w segs -> (forall s, In s segs -> left_to_right s) -> general_position 0 segs.
Proof.
  intros Ht [CR CO CP] HR. assert (HI : forall i s, nth_error segs i = Some s -> left_to_right s) by (intros i s E; apply HR; eapply nth_error_In; exact E). split.
  - exact HR.
  - intros i j s s' Hij Ei Ej Hon. destruct (CO i j s s' Hij Ei Ej) as (_ & _ & H). pose proof (HI _ _ Ei) as R1. pose proof (HI _ _ Ej) as R2.
    apply on_segment_height in Hon as ((X1 & X2) & Y); [|exact R1]. rewrite (first_x_lr s s' R1 R2), Rmax_right in H by exact X1.
    assert (E : height s' (fst (g_source s' : vec R 2)) = fst (snd (g_source s' : vec R 2))) by (unfold height; unfold Rdiv; ring).
    rewrite E, <- Y, (Rminus_diag_eq _ _ eq_refl), Rabs_R0 in H.
    pose proof (height_bound_nonneg s (fst (g_source s' : vec R 2))). pose proof (height_bound_nonneg s' (fst (g_source s' : vec R 2))). lra.
  - intros i j s s' Hij Ei Ej Hm. unfold crossing. pose proof (HI _ _ Ei) as R1. pose proof (HI _ _ Ej) as R2.
    destruct (CP i j s s' Hij Ei Ej) as [(T & T' & _ & _ & HD & _)|[(T & T' & _ & HS & _)|(V1 & V2 & _)]].
    + pose proof (slope_nonneg (rsub (g_target s) (g_source s)) (rsub (g_target s') (g_source s'))). lra.
    + destruct HS as (_ & _ & _ & _ & HD). pose proof (slope_nonneg (rsub (g_target s) (g_source s)) (rsub (g_target s') (g_source s'))). lra.
    + exfalso. destruct (CO i j s s' Hij Ei Ej) as (_ & _ & H). destruct Hm as (q & H1 & H2). apply on_segment_height in H1 as (_ & H1); [|exact R1]. apply on_segment_height in H2 as (_ & H2); [|exact R2].
      assert (K : forall (r : segment (RS M) 2) x, rise r = 0 -> height r x = fst (snd (g_source r : vec R 2))) by (intros r x V; unfold height; unfold rise in V; rewrite V; ring).
      rewrite (K s _ V1) in H1. rewrite (K s' _ V2) in H2. rewrite (K s _ V1), (K s' _ V2) in H. rewrite <- H1, <- H2, (Rminus_diag_eq _ _ eq_refl), Rabs_R0 in H.
      pose proof (height_bound_nonneg s (first_x s s')). pose proof (height_bound_nonneg s' (first_x s s')). lra.
Qed.
End Exact.

(** ** Transfer of the order of events and of the comparison *)
Section Transfer.
Context {p e : Z} {Hp : Prec_gt_0 p} {He : Prec_lt_emax p e} (fc fs fa : binary_float p e -> binary_float p e) (fpi : binary_float p e).
Notation S := (IEEE p e Hp He fc fs fa fpi).
Context (M : R).

Lemma exact_nth (segs : list (segment S 2)) i s : nth_error (map (exact_segment M) segs) i = Some s <-> exists r, nth_error segs i = Some r /\ s = exact_segment M r.
Proof.
  rewrite nth_error_map. split.
  - destruct (nth_error segs i) as [r|]; cbn; [|discriminate]. intros E. injection E as <-. eauto.
  - intros (r & -> & ->). reflexivity.
Qed.

Lemma events_exact (segs : list (segment S 2)) : events (map (exact_segment M) segs) = map (exact_event M) (events segs).
Proof.
  assert (K : forall l k, events_from k (map (exact_segment M) l) = map (exact_event M) (events_from k (l : list (segment S 2)))).
  { induction l as [|s l IH]; intros k; [reflexivity|]. specialize (IH (Datatypes.S k)). unfold events_from in IH |- *. cbn [length seq combine flat_map map app]. rewrite <- IH. reflexivity. }
  exact (K segs 0%nat).
Qed.

Lemma pop_exact (segs : list (segment S 2)) (evs : list (event S)) :
  (forall s, In s segs -> @finite_pt p e 2 (g_source s) /\ @finite_pt p e 2 (g_target s)) -> pop_order segs evs ->
  pop_order (map (exact_segment M) segs) (map (exact_event M) evs).
Proof.
  intros HF (HP & HO). split; [rewrite events_exact; apply Permutation_map, HP|].
  assert (FE : forall v, In v evs -> is_finite (fst (ev_point v) : binary_float p e) = true).
  { intros v Hv. apply Permutation_sym in HP. apply (Permutation_in _ HP), In_events in Hv as (i & s & Es & Hv). apply nth_error_In, HF in Es as (F1 & F2).
    specialize (F1 0%nat ltac:(lia)). specialize (F2 0%nat ltac:(lia)). destruct s as [[a0 [a1 []]] [b0 [b1 []]]]. cbn [vnth g_source g_target fst] in F1, F2. destruct Hv as [-> | ->]; assumption. }
  clear HP. induction HO as [|v evs Hv HO IH]; [constructor|]. cbn [map]. constructor.
  - apply Forall_forall. intros r Hr. apply in_map_iff in Hr as (v' & <- & Hv'). rewrite Forall_forall in Hv. specialize (Hv v' Hv').
    pose proof (FE v (or_introl eq_refl)) as G1. pose proof (FE v' (or_intror Hv')) as G2.
    change (@sltb S) with (@Bltb p e) in Hv. rewrite Bltb_correct in Hv by assumption.
    destruct v as [[x0 [x1 []]] i b], v' as [[y0 [y1 []]] i' b']. cbn in Hv |- *. unfold Rltb. destruct (Rlt_dec (B2R y0) (B2R x0)) as [Q|Q]; [|reflexivity].
    rewrite Rlt_bool_true in Hv by exact Q. discriminate Hv.
  - apply IH. intros r Hr. apply FE. right. exact Hr.
Qed.

Lemma comp_exact (t w : R) (segs : list (segment S 2)) : uround p <= 1 / 128 ->
  (forall s, In s segs -> @finite_pt p e 2 (g_source s) /\ @finite_pt p e 2 (g_target s)) ->
  clear_scene p e t w (map (exact_segment M) segs) -> forall i j, comp segs i j = comp (map (exact_segment M) segs) i j.
Proof.
  intros Hu1 HF [CR CO CP] i j. unfold comp. rewrite !nth_error_map.
  destruct (nth_error segs i) as [s|] eqn:Ei; [|reflexivity]. destruct (nth_error segs j) as [s'|] eqn:Ej; [|reflexivity]. cbn [option_map].
  destruct (Nat.eq_dec i j) as [<-|Hij].
  - rewrite Ei in Ej. injection Ej as <-. unfold below. cbv zeta. change (@sltb S) with (@Bltb p e). rewrite Bltb_self.
    symmetry. cbn [sltb RS]. unfold Rltb. destruct (Rlt_dec _ _) as [Q|Q]; [exfalso; lra|reflexivity].
  - destruct (HF s (nth_error_In _ _ Ei)) as (F1 & F2). destruct (HF s' (nth_error_In _ _ Ej)) as (F1' & F2').
    assert (Ei' : nth_error (map (exact_segment M) segs) i = Some (exact_segment M s)) by (apply exact_nth; eauto).
    assert (Ej' : nth_error (map (exact_segment M) segs) j = Some (exact_segment M s')) by (apply exact_nth; eauto).
    apply (below_clear fc fs fa fpi M s s' Hu1 F1 F2 F1' F2'); [exact (CR _ (nth_error_In _ _ Ei'))|exact (CR _ (nth_error_In _ _ Ej'))|exact (CO i j _ _ Hij Ei' Ej')].
Qed.
End Transfer.

(** ** C78: the comparison handed to the set: on a clear scene it orders the segments as
    exact arithmetic does *)
Theorem C78_order :
  forall (p e : Z) (Hp : Prec_gt_0 p) (He : Prec_lt_emax p e) f g h pi, let S := IEEE p e Hp He f g h pi in uround p <= 1 / 128 ->
  forall (M t w : R) (segs : list (segment S 2)),
    (forall s, In s segs -> @finite_pt p e 2 (g_source s) /\ @finite_pt p e 2 (g_target s)) ->
    clear_scene p e t w (map (exact_segment M) segs) ->
  forall i j, comp segs i j = comp (map (exact_segment M) segs) i j.
Proof. intros p e Hp He f g h pi S Hu1 M t w segs HF HC. exact (comp_exact f g h pi M t w segs Hu1 HF HC). Qed.
Print Assumptions C78_order.

(** the sweep of a clear scene reports as many points as the exact sweep, in the same
    order, each near the exact one *)
Theorem C78_sweep :
  forall (p e : Z) (Hp : Prec_gt_0 p) (He : Prec_lt_emax p e) f g h pi, let S := IEEE p e Hp He f g h pi in
  forall (L : Linal S) (t : R), LinalF L t -> uround p <= 1 / 128 ->
  forall (M w : R) (dbg dbg' : bool) (os : ordered_set), set_like os ->
    (dbg = true -> forall x y : vec (binary_float p e) 2, finite_pt x -> finite_pt y -> rdist (vreal x) (vreal y) <= w -> veq L x y = true) ->
  forall (segs : list (segment S 2)) (evs : list (event S)),
    (forall s, In s segs -> @finite_pt p e 2 (g_source s) /\ @finite_pt p e 2 (g_target s)) ->
    clear_scene p e t w (map (exact_segment M) segs) -> Permutation (events segs) evs ->
    exists out out', sweep L dbg os segs evs = Ok out /\
      sweep (raw_linal (RS M) 0) dbg' os (map (exact_segment M) segs) (map (exact_event M) evs) = Ok out' /\
      Forall2 (fun (q : vec (binary_float p e) 2) (q' : vec R 2) => finite_pt q /\ rdist (vreal q) q' <= w) out out'.
Proof.
  intros p e Hp He f g h pi S L t HL Hu1 M w dbg dbg' os Hos Hveq segs evs HF HC HP.
  apply (sim_sweep L (raw_linal (RS M) 0) dbg dbg' os Hos segs (map (exact_segment M) segs)
    (fun (q : vec (binary_float p e) 2) (q' : vec R 2) => finite_pt q /\ rdist (vreal q) q' <= w)).
  - apply map_length.
  - apply functional_extensionality. intros i. apply functional_extensionality. intros j. exact (comp_exact f g h pi M t w segs Hu1 HF HC i j).
  - intros i j s1 s1' s2 s2' Hij E1 E1' E2 E2'. destruct (HF _ (nth_error_In _ _ E1)) as (F1 & F2). destruct (HF _ (nth_error_In _ _ E1')) as (F1' & F2').
    destruct HC as [CR CO CP]. pose proof (CP i j s2 s2' Hij E2 E2') as HH. pose proof (lf_slack _ _ HL) as Ht0.
    apply exact_nth in E2 as (r & E2 & ->). apply exact_nth in E2' as (r' & E2' & ->). pose proof (eq_trans (eq_sym E1) E2) as Q1. injection Q1 as <-. pose proof (eq_trans (eq_sym E1') E2') as Q2. injection Q2 as <-.
    destruct HH as [HH|[HH|HH]].
    + right. destruct HH as (T & T' & Hx & HS & HD & HT & HT' & B1 & B2 & B3 & B4 & W1 & W2). cbn [exact_segment g_source g_target] in *.
      destruct (hit_float f g h pi L t HL dbg w s1 s1' Hu1 F1 F2 F1' F2' Hveq T T' Hx HS HD HT HT' B1 B2 B3 B4 W1 W2) as (q & E & Fq & Dq).
      set (a := vreal (g_source s1 : vec (binary_float p e) 2)) in *. set (a' := vreal (g_source s1' : vec (binary_float p e) 2)) in *.
      set (d := rsub (vreal (g_target s1 : vec (binary_float p e) 2)) a) in *. set (d' := rsub (vreal (g_target s1' : vec (binary_float p e) 2)) a') in *.
      change (t + slope_bound p e (perp d') d < Rabs (det2 d d')) in HD. change (param_bound p e a d a' d' T <= T <= 1 - param_bound p e a d a' d' T) in HT. change (param_bound p e a' d' a d T' <= T' <= 1 - param_bound p e a' d' a d T') in HT'.
      exists q, (along a d T). split; [exact E|]. split; [|split; [exact Fq|exact Dq]].
      pose proof (slope_nonneg (p := p) (e := e) d d') as A0.
      pose proof (param_bound_nonneg (p := p) (e := e) a d a' d' T ltac:(lra)) as N1.
      assert (HD' : 0 <= Rabs (det2 d' d) - slope_bound p e (perp d) d') by (rewrite (det2_anti d d'), Rabs_Ropp, (slope_bound_swap d d'); lra).
      pose proof (param_bound_nonneg (p := p) (e := e) a' d' a d T' HD') as N2.
      apply (exact_hit dbg' (exact_segment M s1) (exact_segment M s1') T T'); [|exact Hx|lra|lra].
      intros Q. change (det2 d d' = 0) in Q. rewrite Q, Rabs_R0 in HD. lra.
    + left. split; [exact (miss_float f g h pi L t HL M dbg s1 s1' Hu1 F1 F2 F1' F2' HH)|].
      destruct HH as (T & T' & Hx & HS & HH). set (a := g_source (exact_segment M s1) : vec R 2) in *. set (a' := g_source (exact_segment M s1') : vec R 2) in *.
      set (d := rsub (g_target (exact_segment M s1)) a) in *. set (d' := rsub (g_target (exact_segment M s1')) a') in *.
      pose proof (slope_nonneg (p := p) (e := e) d d') as A0.
      assert (HD : 2 * slope_bound p e (perp d') d < Rabs (det2 d d')) by (destruct HS as (_ & _ & _ & _ & HD); exact HD).
      pose proof (param_bound_nonneg (p := p) (e := e) a d a' d' T ltac:(lra)) as N1.
      assert (HD' : 0 <= Rabs (det2 d' d) - slope_bound p e (perp d) d') by (rewrite (det2_anti d d'), Rabs_Ropp, (slope_bound_swap d d'); lra).
      pose proof (param_bound_nonneg (p := p) (e := e) a' d' a d T' HD') as N2.
      apply (exact_miss dbg' (exact_segment M s1) (exact_segment M s1') T T'); [|exact Hx|].
      * intros Q. change (det2 d d' = 0) in Q. rewrite Q, Rabs_R0 in HD. lra.
      * intros ((Q1 & Q2) & (Q3 & Q4)). destruct HH as [HH|[HH|[HH|HH]]]; lra.
    + left. split; [exact (level_float f g h pi L t HL M dbg s1 s1' Hu1 F1 F2 F1' F2' HH)|].
      apply exact_parallel. destruct HH as (R1 & R2 & _). unfold rise in R1, R2.
      destruct (g_source (exact_segment M s1) : vec R 2) as (a0 & a1 & []), (g_target (exact_segment M s1) : vec R 2) as (b0 & b1 & []),
        (g_source (exact_segment M s1') : vec R 2) as (c0 & c1 & []), (g_target (exact_segment M s1') : vec R 2) as (d0 & d1 & []).
      cbn [fst snd] in R1, R2. unfold det2, rsub. cbn. rewrite R1, R2. ring.
  - exact HP.
  - clear. induction evs as [|v evs IH]; constructor; [split; reflexivity|exact IH].
Qed.
Print Assumptions C78_sweep.

(** on a clear scene the sweep reports a point exactly if two segments meet *)
Theorem C78_detects :
  forall (p e : Z) (Hp : Prec_gt_0 p) (He : Prec_lt_emax p e) f g h pi, let S := IEEE p e Hp He f g h pi in
  forall (L : Linal S) (t : R), LinalF L t -> uround p <= 1 / 128 ->
  forall (M w : R) (dbg : bool) (os : ordered_set), std_set os ->
    (dbg = true -> forall x y : vec (binary_float p e) 2, finite_pt x -> finite_pt y -> rdist (vreal x) (vreal y) <= w -> veq L x y = true) ->
  forall (segs : list (segment S 2)) (evs : list (event S)),
    (forall s, In s segs -> @finite_pt p e 2 (g_source s) /\ @finite_pt p e 2 (g_target s)) ->
    let exact := map (exact_segment M) segs in
    clear_scene p e t w exact -> (forall s, In s exact -> left_to_right s) -> pop_order segs evs ->
    exists out, sweep L dbg os segs evs = Ok out /\
      (out <> [] <-> exists i j s s', i <> j /\ nth_error exact i = Some s /\ nth_error exact j = Some s' /\ meet s s').
Proof.
  intros p e Hp He f g h pi S L t HL Hu1 M w dbg os Hos Hveq segs evs HF exact HC HR Hpop.
  destruct (C78_sweep p e Hp He f g h pi L t HL Hu1 M w dbg false os (ss_like _ Hos) Hveq segs evs HF HC (proj1 Hpop)) as (out & out' & E & E' & F).
  pose proof (pop_exact f g h pi M segs evs HF Hpop) as Hpop'.
  pose proof (clear_general t w exact (lf_slack _ _ HL) HC HR) as Hgp.
  destruct (C25_detects M (raw_linal (RS M) 0) (raw_linal_R M 0 (Rle_refl 0)) (raw_veq_refl M 0) false os Hos exact _ Hgp Hpop') as (out2 & E2 & D1 & D2).
  unfold exact in E2. rewrite E' in E2. apply Ok_inj in E2. subst out2.
  assert (Q : out <> [] <-> out' <> []) by (split; intros N Z; apply N; [subst out'|subst out]; inversion F; reflexivity).
  exists out. split; [exact E|]. split; [intros N; apply (D2 eq_refl), Q, N|intros N; apply Q, D1, N].
Qed.
Print Assumptions C78_detects.

(** if no vertical line meets three of the segments: one point near each intersection *)
Theorem C78_two :
  forall (p e : Z) (Hp : Prec_gt_0 p) (He : Prec_lt_emax p e) f g h pi, let S := IEEE p e Hp He f g h pi in
  forall (L : Linal S) (t : R), LinalF L t -> uround p <= 1 / 128 ->
  forall (M w : R) (dbg : bool) (os : ordered_set), std_set os ->
    (dbg = true -> forall x y : vec (binary_float p e) 2, finite_pt x -> finite_pt y -> rdist (vreal x) (vreal y) <= w -> veq L x y = true) ->
  forall (segs : list (segment S 2)) (evs : list (event S)),
    (forall s, In s segs -> @finite_pt p e 2 (g_source s) /\ @finite_pt p e 2 (g_target s)) ->
    let exact := map (exact_segment M) segs in
    clear_scene p e t w exact -> (forall s, In s exact -> left_to_right s) -> pop_order segs evs ->
    (forall x i j k s s' s'', i <> j -> j <> k -> i <> k -> nth_error exact i = Some s -> nth_error exact j = Some s' -> nth_error exact k = Some s'' ->
      ~ (spans s x /\ spans s' x /\ spans s'' x)) ->
    exists out out', sweep L dbg os segs evs = Ok out /\ reports_once exact out' /\
      Forall2 (fun (q : vec (binary_float p e) 2) (q' : vec R 2) => finite_pt q /\ rdist (vreal q) q' <= w) out out'.
Proof.
  intros p e Hp He f g h pi S L t HL Hu1 M w dbg os Hos Hveq segs evs HF exact HC HR Hpop H3.
  destruct (C78_sweep p e Hp He f g h pi L t HL Hu1 M w dbg false os (ss_like _ Hos) Hveq segs evs HF HC (proj1 Hpop)) as (out & out' & E & E' & F).
  pose proof (pop_exact f g h pi M segs evs HF Hpop) as Hpop'.
  pose proof (clear_general t w exact (lf_slack _ _ HL) HC HR) as Hgp.
  destruct (C25_two_partial M (raw_linal (RS M) 0) (raw_linal_R M 0 (Rle_refl 0)) (raw_veq_refl M 0) eq_refl false os Hos exact _ Hgp Hpop' H3) as (out2 & E2 & HO).
  unfold exact in E2. rewrite E' in E2. apply Ok_inj in E2. subst out2. exists out, out'. auto.
Qed.
Print Assumptions C78_two.

(** without any assumption on the positions: a finite reported point is near one
    segment and nearly on the line of another one *)
Theorem C78_sound :
  forall (p e : Z) (Hp : Prec_gt_0 p) (He : Prec_lt_emax p e) f g h pi, let S := IEEE p e Hp He f g h pi in
  forall (L : Linal S) (t : R), LinalF L t -> uround p <= 1 / 128 ->
  forall (dbg : bool) (os : ordered_set), set_like os ->
  forall (segs : list (segment S 2)) (evs : list (event S)),
    (forall s, In s segs -> @finite_pt p e 2 (g_source s) /\ @finite_pt p e 2 (g_target s) /\
       rdist (vreal (g_target s : vec (binary_float p e) 2)) (vreal (g_source s : vec (binary_float p e) 2)) <= bpow radix2 (e / 2 - 2)) ->
    Permutation (events segs) evs ->
    returns_or_asserts dbg (sweep L dbg os segs evs) /\
    forall out (q : vec (binary_float p e) 2), sweep L dbg os segs evs = Ok out -> In q out -> finite_pt q ->
      exists i j s s' T, i <> j /\ nth_error segs i = Some s /\ nth_error segs j = Some s' /\ - t <= T <= 1 + t /\
        let a := vreal (g_source s : vec (binary_float p e) 2) in let a' := vreal (g_source s' : vec (binary_float p e) 2) in
        near_hit p e a' (perp (rsub (vreal (g_target s' : vec (binary_float p e) 2)) a')) a (rsub (vreal (g_target s : vec (binary_float p e) 2)) a) (vreal q) T.
Proof.
  intros p e Hp He f g h pi S L t HL Hu1 dbg os Hos segs evs HF HP. destruct (C24_sweep_sound S L dbg os Hos segs evs HP) as (H1 & H2). split; [exact H1|].
  intros out q E Hq Fq. destruct (H2 out q E Hq) as (i & j & s & s' & Hij & Es & Es' & Ei).
  destruct (HF _ (nth_error_In _ _ Es)) as (F1 & F2 & B). destruct (HF _ (nth_error_In _ _ Es')) as (F1' & F2' & B').
  assert (Hp7 : (7 <= p)%Z). { assert (Q : uround p <= bpow radix2 (-7)) by (cbn; lra). apply le_bpow in Q. lia. } assert (He0 : (p < e)%Z) by exact He.
  assert (HB : bpow radix2 (e / 2 - 2) <= bpow radix2 (e - 2)) by (apply bpow_le; apply Zplus_le_compat_r, Z.div_le_upper_bound; lia).
  destruct s as [a b], s' as [a' b']. cbn [g_source g_target] in *.
  destruct (C73_segments p e Hp He f g h pi L t HL Hu1 dbg a b a' b' q F1 F2 F1' F2' Fq Ei) as (K & _).
  destruct K as (T & HT & HN).
  - eapply Rle_trans; [exact B|exact HB].
  - eapply Rle_trans; [exact B'|exact HB].
  - apply Rle_trans with (bpow radix2 (e / 2 - 2) * bpow radix2 (e / 2 - 2)); [apply Rmult_le_compat; try apply rnorm_nonneg; assumption|].
    rewrite <- bpow_plus. apply bpow_le. pose proof (Z.mul_div_le e 2 ltac:(lia)). lia.
  - exists i, j, (@mkSegment S 2 a b), (@mkSegment S 2 a' b'), T. auto.
Qed.
Print Assumptions C78_sound.

(** ** Without the margin the property fails: in double precision the first segment
    rises by one unit in the last place of 1, so that rounding puts the start of the
    second one on it; the second one is not inserted and the crossing is missed *)
Lemma sweep_equivalent {S : Scalar} (L : Linal S) dbg os (s0 s1 : segment S 2) (v0 v1 v2 v3 : vec S 2) : std_set os ->
  (forall i j, comp [s0; s1] i j = false) ->
  sweep L dbg os [s0; s1] [mkEvent v0 0 true; mkEvent v1 1 true; mkEvent v2 1 false; mkEvent v3 0 false] = Ok [].
Proof.
  intros Hos HC. assert (Hsw : forall l, strict_weak (comp [s0; s1]) l).
  { intros l. split; intros; rewrite ?HC; auto. rewrite HC in *. discriminate. }
  assert (Hnil : StronglySorted (fun i j => comp [s0; s1] i j = true) []) by constructor.
  assert (Hone : forall i, StronglySorted (fun i j => comp [s0; s1] i j = true) [i]) by (intros i; repeat constructor).
  set (st := sweep_step L dbg os [s0; s1]).
  assert (K0 : st ([], []) (mkEvent v0 0 true) = Ok ([0%nat], [])).
  { unfold st, sweep_step. cbn [ev_start ev_id]. destruct (os_insert os (comp [s0; s1]) [] 0%nat) as [p0 l0] eqn:E0.
    destruct (ss_insert os Hos _ [] 0%nat p0 l0 (Hsw _) Hnil E0) as [(-> & y & Hy & _)|(l1 & l2 & El & -> & -> & _)]; [destruct p0; discriminate Hy|].
    symmetry in El. apply app_eq_nil in El as (-> & ->). reflexivity. }
  assert (K1 : st ([0%nat], []) (mkEvent v1 1 true) = Ok ([0%nat], [])).
  { unfold st, sweep_step. cbn [ev_start ev_id]. destruct (os_insert os (comp [s0; s1]) [0%nat] 1%nat) as [p1 l1] eqn:E1.
    destruct (ss_insert os Hos _ [0%nat] 1%nat p1 l1 (Hsw _) (Hone _) E1) as [(-> & y & Hy & _)|(k1 & k2 & El & -> & _ & Hs)].
    - destruct p1 as [|p1]; [reflexivity|destruct p1; discriminate Hy].
    - exfalso. destruct k1 as [|a k1]; cbn [app] in El, Hs.
      + subst k2. apply StronglySorted_inv in Hs as (_ & F). inversion F as [|? ? K _]. rewrite HC in K. discriminate K.
      + apply StronglySorted_inv in Hs as (_ & F). eapply Forall_forall in F; [|apply in_or_app; right; left; reflexivity].
        rewrite HC in F. discriminate F. }
  assert (K2 : st ([0%nat], []) (mkEvent v2 1 false) = Ok ([], [])).
  { unfold st, sweep_step. cbn [ev_start ev_id]. pose proof (ss_find os Hos _ [0%nat] 1%nat (Hsw _) (Hone _)) as F1. destruct (os_find os (comp [s0; s1]) [0%nat] 1%nat) as [q|].
    - destruct F1 as (y & Hy & _). destruct q as [|q]; [reflexivity|destruct q; discriminate Hy].
    - specialize (F1 0%nat (or_introl eq_refl)). rewrite !HC in F1. destruct F1; discriminate. }
  assert (K3 : st ([], []) (mkEvent v3 0 false) = Ok ([], [])).
  { unfold st, sweep_step. cbn [ev_start ev_id]. pose proof (ss_find os Hos _ [] 0%nat (Hsw _) Hnil) as F2. destruct (os_find os (comp [s0; s1]) [] 0%nat) as [q|]; [|reflexivity].
    destruct F2 as (z & Hz & _). destruct q; discriminate Hz. }
  unfold sweep. fold st. cbn [foldM]. rewrite K0. cbn [bind]. rewrite K1. cbn [bind]. rewrite K2. cbn [bind]. rewrite K3. reflexivity.
Qed.

Definition near_one : b64 := b64_pow (2 ^ 52 + 1) (-52).
Definition dseg f g h pi (x0 y0 x1 y1 : b64) : segment (B64 f g h pi) 2 := @mkSegment (B64 f g h pi) 2 (mk2 x0 y0) (mk2 x1 y1).

Theorem C78_missed_refuted : forall f g h pi, let S := B64 f g h pi in
  exists (segs : list (segment S 2)) (evs : list (event S)),
    (forall s, In s segs -> @finite_pt 53 1024 2 (g_source s) /\ @finite_pt 53 1024 2 (g_target s)) /\ pop_order segs evs /\
    general_position 0 (map (exact_segment 1) segs) /\
    (exists s s', nth_error (map (exact_segment 1) segs) 0 = Some s /\ nth_error (map (exact_segment 1) segs) 1 = Some s' /\ meet s s') /\
    forall (L : Linal S) (dbg : bool) (os : ordered_set), std_set os -> sweep L dbg os segs evs = Ok [].
Proof.
  intros f g h pi S. set (z := b64_ofZ).
  set (s0 := dseg f g h pi (z 0%Z) (z 1%Z) (z 4%Z) near_one). set (s1 := dseg f g h pi (z 1%Z) (z 1%Z) (z 3%Z) (z 2%Z)).
  destruct (b64_small 0 eq_refl) as (F0 & E0), (b64_small 1 eq_refl) as (F1 & E1), (b64_small 2 eq_refl) as (F2 & E2), (b64_small 3 eq_refl) as (F3 & E3), (b64_small 4 eq_refl) as (F4 & E4).
  destruct (@pow_spec 53 1024 prec53 prec_emax64 (2 ^ 52 + 1) (-52) eq_refl ltac:(lia) ltac:(lia)) as [Fn En]. change (ieee_pow 53 1024 prec53 prec_emax64 (2 ^ 52 + 1) (-52)) with near_one in Fn, En.
  set (ep := bpow radix2 (-52)) in *. assert (Hep : 0 < ep < 1 / 2).
  { split; [apply bpow_gt_0|]. apply Rle_lt_trans with (bpow radix2 (-2)); [apply bpow_le; lia|cbn; lra]. }
  assert (En' : B2R near_one = 1 + ep).
  { rewrite En, plus_IZR. replace (IZR (2 ^ 52)) with (bpow radix2 52) by (rewrite <- IZR_Zpower by lia; reflexivity). rewrite Rmult_plus_distr_r. unfold ep at 1. rewrite <- bpow_plus. cbn. lra. }
  clearbody ep. assert (X0 : exact_segment 1 s0 = seg2 0 1 4 (1 + ep)).
  { unfold exact_segment, s0, dseg, vreal, mk2. cbn [g_source g_target vmap fst snd]. unfold z. rewrite E0, E1, E4, En'. reflexivity. }
  assert (X1 : exact_segment 1 s1 = seg2 1 1 3 2).
  { unfold exact_segment, s1, dseg, vreal, mk2. cbn [g_source g_target vmap fst snd]. unfold z. rewrite E1, E2, E3. reflexivity. }
  exists [s0; s1], [mkEvent (g_source s0) 0 true; mkEvent (g_source s1) 1 true; mkEvent (g_target s1) 1 false; mkEvent (g_target s0) 0 false].
  split; [|split; [|split; [|split]]].
  - intros s [<-|[<-|[]]]; split; intros [|[|i]] Hi; try lia; assumption.
  - split.
    + change (events [s0; s1]) with [mkEvent (g_source s0) 0 true; mkEvent (g_target s0) 0 false; mkEvent (g_source s1) 1 true; mkEvent (g_target s1) 1 false].
      apply perm_skip. apply (Permutation_trans (Permutation_cons_append _ _)). apply Permutation_refl.
    + repeat constructor; vm_compute; reflexivity.
  - cbn [map]. rewrite X0, X1. split.
    + intros s [<-|[<-|[]]]; unfold left_to_right; cbn; lra.
    + intros i j s s' Hne Ei Ej. cases2 i Ei; cases2 j Ej; try congruence; intros (t & Ht & E); cbn in E; injection E as P1 P2.
      * assert (Q : ep * t = 0) by lra. apply Rmult_integral in Q as [Q|Q]; lra.
      * lra.
    + intros i j s s' Hne Ei Ej. cases2 i Ei; cases2 j Ej; try congruence; intros _; unfold crossing, det2; cbn; unfold Rabs; destruct (Rcase_abs _); lra.
  - cbn [map]. rewrite X0, X1. exists (seg2 0 1 4 (1 + ep)), (seg2 1 1 3 2). split; [reflexivity|]. split; [reflexivity|].
    set (T := / (4 - 2 * ep)). assert (HT : T * (4 - 2 * ep) = 1) by (unfold T; field; lra).
    assert (T0 : 0 < T) by (apply Rinv_0_lt_compat; lra). assert (T1 : T <= 1 / 3) by (apply Rnot_lt_le; intros N; assert (1 / 3 * (4 - 2 * ep) < T * (4 - 2 * ep)) by (apply Rmult_lt_compat_r; lra); lra).
    exists (mk2 (4 * T) (1 + ep * T)). split; [exists T|exists (ep * T)].
    + split; [lra|]. cbn. unfold mk2. repeat (apply f_equal2; [ring|]). reflexivity.
    + split; [split; [apply Rmult_le_pos; lra|apply Rle_trans with (1 / 2 * (1 / 3)); [apply Rmult_le_compat; lra|lra]]|]. cbn. unfold mk2. apply f_equal2; [lra|]. apply f_equal2; [ring|reflexivity].
  - intros L dbg os Hos. apply (sweep_equivalent L dbg os s0 s1 _ _ _ _ Hos).
    assert (K : comp [s0; s1] 0 0 = false /\ comp [s0; s1] 0 1 = false /\ comp [s0; s1] 1 0 = false /\ comp [s0; s1] 1 1 = false) by (vm_compute; repeat split).
    assert (N : forall k, nth_error [s0; s1] (Datatypes.S (Datatypes.S k)) = None) by (intros k; destruct k; reflexivity).
    intros i j. destruct i as [|[|i]]; [| |unfold comp; rewrite N; reflexivity]; (destruct j as [|[|j]]; [| |unfold comp; rewrite N; reflexivity]); apply K.
Qed.
Print Assumptions C78_missed_refuted.

(** ** Instances: segments with small integer coordinates *)
Section Small.
Context (Hu : 0 < uround 53 <= 1 / 4194304 * bpow radix2 (-30)) (Hh : 0 < uflow 53 1024 <= 1 / 4194304 * bpow radix2 (-30)).
Definition within9 (s : segment (RS 1) 2) : Prop :=
  Rabs (fst (g_source s : vec R 2)) <= 9 /\ Rabs (fst (snd (g_source s : vec R 2))) <= 9 /\
  Rabs (fst (g_target s : vec R 2)) <= 9 /\ Rabs (fst (snd (g_target s : vec R 2))) <= 9.
Lemma big_bpow k : (14 <= k)%Z -> 16384 <= bpow radix2 k.
Proof. intros H. change 16384 with (bpow radix2 14). apply bpow_le, H. Qed.
Lemma small_30 : 0 < bpow radix2 (-30) <= 1 / 4096.
Proof. split; [apply bpow_gt_0|]. apply Rle_trans with (bpow radix2 (-12)); [apply bpow_le; lia|cbn; lra]. Qed.
Lemma abs_sub9 x y : Rabs x <= 9 -> Rabs y <= 9 -> Rabs (x - y) <= 18.
Proof. intros X Y. apply Rabs_le_inv in X, Y. apply Rabs_le. lra. Qed.

Lemma small_height (s : segment (RS 1) 2) x : within9 s -> 1 <= run s -> Rabs x <= 9 -> height_room 53 1024 s x /\ height_bound 53 1024 s x <= 1 / 16.
Proof.
  pose proof small_30 as X30. pose proof (big_bpow (1024 - 2) ltac:(lia)) as P2. pose proof (big_bpow (1024 - 3) ltac:(lia)) as P3.
  intros (H1 & H2 & H3 & H4) Hr Hx.
  assert (Ar : Rabs (run s) = run s) by (apply Rabs_pos_eq; lra). pose proof (abs_sub9 _ _ H3 H1) as Q1. fold (run s) in Q1. pose proof (abs_sub9 _ _ H4 H2) as Q2. fold (rise s) in Q2.
  pose proof (abs_sub9 _ _ Hx H1) as Q3. pose proof (Rabs_pos (rise s)) as r0. pose proof (Rabs_pos (x - fst (g_source s : vec R 2))) as x0.
  assert (I : 0 < / run s <= 1) by (split; [apply Rinv_0_lt_compat; lra|rewrite <- Rinv_1; apply Rinv_le; lra]).
  assert (Q4 : Rabs (rise s) * Rabs (x - fst (g_source s : vec R 2)) <= 18 * 18) by (apply Rmult_le_compat; lra).
  assert (Q5 : 0 <= climb s x <= 324).
  { split; [apply Rabs_pos|]. unfold climb, Rdiv. rewrite !Rabs_mult, (Rabs_pos_eq (/ run s)) by lra. rewrite <- Rmult_assoc.
    assert (0 <= Rabs (rise s) * Rabs (x - fst (g_source s : vec R 2))) by (apply Rmult_le_pos; lra).
    eapply Rle_trans; [apply Rmult_le_compat; [assumption|lra|exact Q4|apply I]|lra]. }
  split.
  - unfold height_room. rewrite Ar. assert (uflow 53 1024 / run s <= 1 * 1) by (apply Rmult_le_compat; lra). rewrite Ar in Q1. repeat split; lra.
  - unfold height_bound. rewrite Ar.
    assert (K1 : uround 53 * (Rabs (fst (snd (g_source s : vec R 2))) + 8 * climb s x) <= uround 53 * 2601) by (apply Rmult_le_compat_l; lra).
    assert (K2 : (3 / run s + 2) * uflow 53 1024 <= 5 * uflow 53 1024) by (apply Rmult_le_compat_r; [lra|unfold Rdiv; lra]). lra.
Qed.
Lemma small_order (s s' : segment (RS 1) 2) : within9 s -> within9 s' -> 1 <= run s -> 1 <= run s' -> Rabs (first_x s s') <= 9 ->
  1 / 4 <= Rabs (height s (first_x s s') - height s' (first_x s s')) -> clear_order 53 1024 s s'.
Proof.
  intros Hs Hs' Hr Hr' Hx Hd. destruct (small_height s _ Hs Hr Hx) as (A1 & A2), (small_height s' _ Hs' Hr' Hx) as (B1 & B2).
  split; [exact A1|]. split; [exact B1|]. lra.
Qed.

Lemma small_plane (po nrm o d : vec R 2) T : rnorm nrm <= 36 -> rnorm d <= 36 -> rdist po o <= 36 -> Rabs T <= 3 ->
  plane_bound 53 1024 po nrm o d T <= 1 / 64 * bpow radix2 (-30).
Proof.
  pose proof small_30 as X30. intros H1 H2 H3 H4. unfold plane_bound. pose proof (rnorm_nonneg nrm). pose proof (rnorm_nonneg d). assert (0 <= rdist po o) by apply rnorm_nonneg. pose proof (Rabs_pos T).
  assert (K1 : rnorm d * rnorm nrm <= 36 * 36) by (apply Rmult_le_compat; lra). assert (K2 : Rabs T * rnorm d <= 3 * 36) by (apply Rmult_le_compat; lra).
  assert (K0 : 0 <= Rabs T * rnorm d) by (apply Rmult_le_pos; lra).
  assert (K3 : rnorm nrm * (Rabs T * rnorm d + rdist po o) <= 36 * 144) by (apply Rmult_le_compat; lra).
  assert (K4 : uround 53 * (rnorm nrm * (Rabs T * rnorm d + rdist po o)) <= uround 53 * (36 * 144)) by (apply Rmult_le_compat_l; lra).
  assert (K5 : uflow 53 1024 * (4 * Rabs T + 3 * (rnorm d * rnorm nrm) + 5) <= uflow 53 1024 * (4 * 3 + 3 * (36 * 36) + 5)) by (apply Rmult_le_compat_l; lra). lra.
Qed.

Lemma small_norms (s s' : segment (RS 1) 2) : within9 s -> within9 s' ->
  rnorm (g_source s : vec R 2) <= 36 /\ rnorm (rsub (g_target s : vec R 2) (g_source s)) <= 36 /\ rdist (g_source s' : vec R 2) (g_source s) <= 36.
Proof.
  destruct s as [[a1 [a2 []]] [b1 [b2 []]]], s' as [[c1 [c2 []]] [d1 [d2 []]]]. unfold within9. cbn [g_source g_target fst snd]. intros (A1 & A2 & A3 & A4) (B1 & B2 & B3 & B4).
  split; [|split].
  - change (rnorm (mk2 a1 a2 : vec R 2) <= 36). eapply Rle_trans; [apply norm2_le|]. lra.
  - change (rnorm (mk2 (b1 - a1) (b2 - a2) : vec R 2) <= 36). eapply Rle_trans; [apply norm2_le|]. pose proof (abs_sub9 _ _ A3 A1). pose proof (abs_sub9 _ _ A4 A2). lra.
  - change (rnorm (mk2 (c1 - a1) (c2 - a2) : vec R 2) <= 36). eapply Rle_trans; [apply norm2_le|]. pose proof (abs_sub9 _ _ B1 A1). pose proof (abs_sub9 _ _ B2 A2). lra.
Qed.
Lemma small_cross (s s' : segment (RS 1) 2) : within9 s -> within9 s' ->
  let a := g_source s : vec R 2 in let d := rsub (g_target s) a in let a' := g_source s' : vec R 2 in let d' := rsub (g_target s') a' in
  1 <= Rabs (det2 d d') -> crossing_scene 53 1024 a d a' d' /\ slope_bound 53 1024 (perp d') d <= 1 / 64 /\
  (forall T, Rabs T <= 3 -> 0 <= param_bound 53 1024 a d a' d' T <= 1 / 32 * bpow radix2 (-30)).
Proof.
  intros W W' a d a' d' HD. pose proof small_30 as X30. pose proof (big_bpow (1024 - 2) ltac:(lia)) as P2. pose proof (big_bpow (1024 - 3) ltac:(lia)) as P3.
  destruct (small_norms s s' W W') as (N1 & N2 & N3), (small_norms s' s W' W) as (N1' & N2' & N3'). change (rnorm a <= 36) in N1. change (rnorm d <= 36) in N2. change (rdist a' a <= 36) in N3. change (rnorm a' <= 36) in N1'. change (rnorm d' <= 36) in N2'. change (rdist a a' <= 36) in N3'.
  pose proof (rnorm_nonneg d) as d0. pose proof (rnorm_nonneg d') as d0'. assert (m0 : 0 <= rdist a' a) by apply rnorm_nonneg.
  assert (NN : rnorm d * rnorm d' <= 36 * 36) by (apply Rmult_le_compat; lra). assert (NN0 : 0 <= rnorm d * rnorm d') by (apply Rmult_le_pos; lra).
  assert (NMd : rdist a' a * rnorm d <= 36 * 36) by (apply Rmult_le_compat; lra).
  assert (NMd' : rdist a' a * rnorm d' <= 36 * 36) by (apply Rmult_le_compat; lra).
  assert (HA : slope_bound 53 1024 (perp d') d <= 1 / 64).
  { unfold slope_bound. rewrite perp_norm. assert (uround 53 * (rnorm d * rnorm d') <= uround 53 * (36 * 36)) by (apply Rmult_le_compat_l; lra). lra. }
  destruct (rdot_perp d d') as (R1 & R2).
  assert (HDb : forall b, 16384 <= b -> 1297 <= b * Rabs (det2 d d')) by (intros b Hb; apply Rle_trans with (16384 * 1); [lra|apply Rmult_le_compat; lra]).
  split; [|split; [exact HA|]].
  - unfold crossing_scene, roomy. rewrite !perp_norm, R1, R2, Rabs_Ropp. rewrite (rdist_sym a a'), (Rmult_comm (rnorm d') (rnorm d)). pose proof (HDb _ P3). repeat split; lra.
  - intros T HT. assert (Hq : 1 / 2 <= Rabs (det2 d d') - slope_bound 53 1024 (perp d') d) by lra. split; [apply param_bound_nonneg; lra|].
    unfold param_bound. assert (HPb : plane_bound 53 1024 a' (perp d') a d T <= 1 / 64 * bpow radix2 (-30)) by (apply small_plane; try rewrite perp_norm; assumption).
    set (q := Rabs (det2 d d') - slope_bound 53 1024 (perp d') d) in *. apply Rmult_le_reg_r with q; [lra|]. unfold Rdiv at 1. rewrite Rmult_assoc, Rinv_l, Rmult_1_r by lra.
    assert (1 / 32 * bpow radix2 (-30) * (1 / 2) <= 1 / 32 * bpow radix2 (-30) * q) by (apply Rmult_le_compat_l; lra). lra.
Qed.

Lemma small_miss (s s' : segment (RS 1) 2) t T T' : within9 s -> within9 s' -> 0 <= t <= 1 / 4 ->
  let a := g_source s : vec R 2 in let d := rsub (g_target s) a in let a' := g_source s' : vec R 2 in let d' := rsub (g_target s') a' in
  1 <= Rabs (det2 d d') -> along a d T = along a' d' T' ->
  (- 3 <= T <= - 1 / 2 \/ 3 / 2 <= T <= 3) \/ (- 3 <= T' <= - 1 / 2 \/ 3 / 2 <= T' <= 3) -> clear_miss 53 1024 t s s'.
Proof.
  intros W W' Ht a d a' d' HD E HT. pose proof small_30 as X30. destruct (small_cross s s' W W' HD) as (C & _ & P).
  assert (HD' : 1 <= Rabs (det2 d' d)) by (rewrite (det2_anti d d'), Rabs_Ropp; exact HD). destruct (small_cross s' s W' W HD') as (_ & _ & P').
  exists T, T'. split; [exact E|]. split; [exact C|]. fold a d a' d'. fold a d a' d' in P, P'.
  destruct HT as [HT|HT].
  - assert (Q : Rabs T <= 3) by (apply Rabs_le; lra). destruct (P T Q). destruct HT as [HT|HT]; [left|right; left]; lra.
  - assert (Q : Rabs T' <= 3) by (apply Rabs_le; lra). destruct (P' T' Q). destruct HT as [HT|HT]; [right; right; left|right; right; right]; lra.
Qed.
Lemma small_hit (s s' : segment (RS 1) 2) t T T' : within9 s -> within9 s' -> 0 <= t <= 1 / 4 ->
  let a := g_source s : vec R 2 in let d := rsub (g_target s) a in let a' := g_source s' : vec R 2 in let d' := rsub (g_target s') a' in
  4 <= Rabs (det2 d d') -> along a d T = along a' d' T' -> rnorm d <= 8 -> rnorm d' <= 8 ->
  1 / 4 <= T <= 3 / 4 -> 1 / 4 <= T' <= 3 / 4 -> clear_hit 53 1024 t (bpow radix2 (-30)) s s'.
Proof.
  intros W W' Ht a d a' d' HD E Nd Nd' HT HT'. pose proof small_30 as X30.
  pose proof (big_bpow (1024 - 3) ltac:(lia)) as P3. pose proof (big_bpow (1024 - 5) ltac:(lia)) as P5.
  destruct (small_cross s s' W W' ltac:(fold a d a' d'; lra)) as (C & SB & P).
  assert (HD' : 1 <= Rabs (det2 d' d)) by (rewrite (det2_anti d d'), Rabs_Ropp; lra). destruct (small_cross s' s W' W HD') as (_ & _ & P').
  fold a d a' d' in C, SB, P, P'.
  destruct (small_norms s s' W W') as (N1 & _ & N3), (small_norms s' s W' W) as (N1' & _ & N3'). change (rnorm a <= 36) in N1. change (rdist a' a <= 36) in N3. change (rnorm a' <= 36) in N1'. change (rdist a a' <= 36) in N3'.
  pose proof (rnorm_nonneg d) as d0. pose proof (rnorm_nonneg d') as d0'.
  destruct (P T ltac:(apply Rabs_le; lra)) as (p0 & p1). destruct (P' T' ltac:(apply Rabs_le; lra)) as (q0 & q1).
  assert (QB : forall o v : vec R 2, rnorm o <= 36 -> 0 <= rnorm v <= 8 -> point_bound 53 1024 o v 1 <= 1 / 8 * bpow radix2 (-30)).
  { intros o v Ho Hv. unfold point_bound. rewrite Rabs_R1, Rmult_1_l. assert (uround 53 * (rnorm o + 5 * rnorm v) <= uround 53 * 76) by (apply Rmult_le_compat_l; lra). lra. }
  pose proof (QB a d N1 ltac:(lra)) as B1. pose proof (QB a' d' N1' ltac:(lra)) as B2.
  exists T, T'. split; [exact E|]. split; [exact C|]. fold a d a' d'. split; [lra|]. split; [lra|]. split; [lra|]. split; [lra|]. split; [lra|]. split; [lra|]. split; [lra|]. split.
  - assert (rnorm d * param_bound 53 1024 a d a' d' T <= 8 * (1 / 32 * bpow radix2 (-30))) by (apply Rmult_le_compat; lra). lra.
  - assert (K1 : plane_bound 53 1024 a' (perp d') a d 1 <= 1 / 64 * bpow radix2 (-30)) by (apply small_plane; try rewrite perp_norm; try rewrite Rabs_R1; lra).
    assert (K2 : plane_bound 53 1024 a (perp d) a' d' 1 <= 1 / 64 * bpow radix2 (-30)) by (apply small_plane; try rewrite perp_norm; try rewrite Rabs_R1; lra).
    assert (K3 : gap_bound 53 1024 a d a' d' 1 1 <= 1 / 4 * bpow radix2 (-30)); [|lra].
    unfold gap_bound. set (D := Rabs (det2 d d')) in *. apply Rmult_le_reg_r with D; [lra|]. unfold Rdiv at 1. rewrite Rmult_assoc, Rinv_l, Rmult_1_r by lra.
    assert (rnorm d * plane_bound 53 1024 a' (perp d') a d 1 <= 8 * (1 / 64 * bpow radix2 (-30))).
    { eapply Rle_trans; [apply Rmult_le_compat_l; [exact d0|exact K1]|]. apply Rmult_le_compat_r; lra. }
    assert (rnorm d' * plane_bound 53 1024 a (perp d) a' d' 1 <= 8 * (1 / 64 * bpow radix2 (-30))).
    { eapply Rle_trans; [apply Rmult_le_compat_l; [exact d0'|exact K2]|]. apply Rmult_le_compat_r; lra. }
    assert (1 / 4 * bpow radix2 (-30) * 4 <= 1 / 4 * bpow radix2 (-30) * D) by (apply Rmult_le_compat_l; lra). lra.
Qed.
End Small.

(** doubles with the tolerance [2^-30]: of the segments from (0, 0) to (4, 4), from
    (1, 3) to (5, 1), from (2, 8) to (6, 8) and from (3, 9) to (7, 9) the first two
    cross; all hypotheses hold, also for the assertions *)
Definition four f g h pi : list (segment (B64 f g h pi) 2) := let z := b64_ofZ in
  [dseg f g h pi (z 0%Z) (z 0%Z) (z 4%Z) (z 4%Z); dseg f g h pi (z 1%Z) (z 3%Z) (z 5%Z) (z 1%Z);
   dseg f g h pi (z 2%Z) (z 8%Z) (z 6%Z) (z 8%Z); dseg f g h pi (z 3%Z) (z 9%Z) (z 7%Z) (z 9%Z)].
Definition four_events f g h pi : list (event (B64 f g h pi)) := let v x y := mk2 (b64_ofZ x) (b64_ofZ y) : vec b64 2 in
  [@mkEvent (B64 f g h pi) (v 0 0)%Z 0 true; @mkEvent (B64 f g h pi) (v 1 3)%Z 1 true; @mkEvent (B64 f g h pi) (v 2 8)%Z 2 true; @mkEvent (B64 f g h pi) (v 3 9)%Z 3 true;
   @mkEvent (B64 f g h pi) (v 4 4)%Z 0 false; @mkEvent (B64 f g h pi) (v 5 1)%Z 1 false; @mkEvent (B64 f g h pi) (v 6 8)%Z 2 false; @mkEvent (B64 f g h pi) (v 7 9)%Z 3 false].
Lemma four_exact f g h pi : map (exact_segment 1) (four f g h pi) = [seg2 0 0 4 4; seg2 1 3 5 1; seg2 2 8 6 8; seg2 3 9 7 9].
Proof.
  unfold four. cbn [map]. unfold exact_segment, dseg, vreal, mk2. cbn [g_source g_target vmap fst snd].
  repeat match goal with |- context [b64_ofZ ?z] => rewrite (proj2 (b64_small z eq_refl)) end. reflexivity.
Qed.

Ltac veqs := unfold along, mk2; cbn; repeat (apply f_equal2; [first [ring | field; lra | lra]|]); reflexivity.
Ltac cases4 i E := destruct i as [|[|[|[|i]]]]; [cbn in E; injection E as <-|cbn in E; injection E as <-|cbn in E; injection E as <-|cbn in E; injection E as <-|destruct i; discriminate E].
Ltac cdet := unfold det2; cbn; unfold Rabs; destruct (Rcase_abs _); lra.
Ltac small_n := match goal with |- rnorm (rsub (g_target (seg2 ?a ?b ?c ?d)) _) <= _ => change (rnorm (mk2 (c - a) (d - b) : vec R 2) <= 8) end;
  eapply Rle_trans; [apply norm2_le|]; unfold Rabs; repeat destruct (Rcase_abs _); lra.
Lemma perm_eight {A} (a b c d e f g h : A) : Permutation [a; b; c; d; e; f; g; h] [a; c; e; g; b; d; f; h].
Proof.
  apply perm_skip. apply (Permutation_cons_app [c; e; g] [d; f; h]). cbn [app]. apply perm_skip.
  apply (Permutation_cons_app [e; g] [f; h]). cbn [app]. apply perm_skip. apply perm_swap.
Qed.
Example C78_example : forall f g h pi, let S := B64 f g h pi in let x := b64_pow 1 (-30) in let L := tolvec_linal S x in
  exists t, let w := B2R x in let segs := four f g h pi in let exact := map (exact_segment 1) segs in
  LinalF L t /\ uround 53 <= 1 / 128 /\ std_set list_set /\
  (forall v u : vec b64 2, finite_pt v -> finite_pt u -> rdist (vreal v) (vreal u) <= w -> veq L v u = true) /\
  (forall s, In s segs -> @finite_pt 53 1024 2 (g_source s) /\ @finite_pt 53 1024 2 (g_target s)) /\
  clear_scene 53 1024 t w exact /\ (forall s, In s exact -> left_to_right s) /\ pop_order segs (four_events f g h pi) /\
  exists s s', nth_error exact 0 = Some s /\ nth_error exact 1 = Some s' /\ meet s s'.
Proof.
  intros f g h pi S x L.
  destruct (@pow_spec 53 1024 prec53 prec_emax64 1 (-30) eq_refl ltac:(lia) ltac:(lia)) as [Fx Ex]. change (ieee_pow 53 1024 prec53 prec_emax64 1 (-30)) with x in Fx, Ex.
  rewrite Rmult_1_l in Ex. pose proof small_30 as X30.
  exists (succ radix2 (FLT_exp (3 - 1024 - 53) 53) (B2R x)). set (t := succ radix2 (FLT_exp (3 - 1024 - 53) 53) (B2R x)). intros w segs exact.
  assert (Ht : 0 <= t <= 1 / 4).
  { split.
    - unfold t. apply Rle_trans with (B2R x); [rewrite Ex; lra|]. apply succ_ge_id.
    - unfold t. apply Rle_trans with (bpow radix2 (-2)); [|cbn; lra]. apply succ_le_lt; [apply FLT_exp_valid; reflexivity|apply generic_format_B2R|apply generic_format_bpow; unfold FLT_exp; lia|].
      rewrite Ex. apply bpow_lt. lia. }
  assert (Hu : 0 < uround 53 <= 1 / 4194304 * bpow radix2 (-30)).
  { split; [apply bpow_gt_0|]. replace (1 / 4194304) with (bpow radix2 (-22)) by (cbn; lra). rewrite <- bpow_plus. apply bpow_le. lia. }
  assert (Hh : 0 < uflow 53 1024 <= 1 / 4194304 * bpow radix2 (-30)).
  { split; [apply bpow_gt_0|]. replace (1 / 4194304) with (bpow radix2 (-22)) by (cbn; lra). rewrite <- bpow_plus. apply bpow_le. lia. }
  split; [apply (tolvec_linal_F f g h pi x Fx); rewrite Ex; lra|]. split; [lra|]. split; [exact list_set_std|]. split; [exact (tolvec_tolerates f g h pi x Fx 2)|].
  split; [|split; [|split; [|split]]].
  - intros s [<-|[<-|[<-|[<-|[]]]]]; split; intros [|[|i]] Hi; try lia; apply b64_small; reflexivity.
  - unfold exact, segs. rewrite four_exact.
    assert (W : forall s, In s [seg2 0 0 4 4; seg2 1 3 5 1; seg2 2 8 6 8; seg2 3 9 7 9] -> within9 s /\ 1 <= run s).
    { intros s [<-|[<-|[<-|[<-|[]]]]]; unfold within9, run; cbn; rewrite ?Rabs_R0, ?Rabs_pos_eq by lra; repeat split; lra. }
    split.
    + intros s Hs. destruct (W s Hs). lra.
    + intros i j s s' Hne Ei Ej. destruct (W s (nth_error_In _ _ Ei)) as (W1 & W2), (W s' (nth_error_In _ _ Ej)) as (W3 & W4).
      apply (small_order Hu Hh); try assumption;
        cases4 i Ei; cases4 j Ej; try congruence; unfold first_x, height; cbn; unfold Rmax, Rmin; repeat destruct (Rle_dec _ _); unfold Rabs; destruct (Rcase_abs _); lra.
    + intros i j s s' Hne Ei Ej. destruct (W s (nth_error_In _ _ Ei)) as (W1 & W2), (W s' (nth_error_In _ _ Ej)) as (W3 & W4).
      pose proof (big_bpow (1024 - 2) ltac:(lia)) as P2. pose proof (big_bpow (1024 - 3) ltac:(lia)) as P3.
      pose proof (fun T T' => small_miss Hu Hh s s' t T T' W1 W3 Ht) as HM. pose proof (fun T T' => small_hit Hu Hh s s' t T T' W1 W3 Ht) as HH. cbv zeta in HM, HH.
      cases4 i Ei; cases4 j Ej; try congruence.
      1: left; unfold w; rewrite Ex; apply (HH (7 / 12) (1 / 3)); try lra; [cdet|veqs|small_n|small_n].
      1: right; left; apply (HM 2 (3 / 2)); [cdet|veqs|lra].
      1: right; left; apply (HM (9 / 4) (3 / 2)); [cdet|veqs|lra].
      1: left; unfold w; rewrite Ex; apply (HH (1 / 3) (7 / 12)); try lra; [cdet|veqs|small_n|small_n].
      1: right; left; apply (HM (- 5 / 2) (- 11 / 4)); [cdet|veqs|lra].
      1: right; left; apply (HM (- 3) (- 7 / 2)); [cdet|veqs|lra].
      1: right; left; apply (HM (3 / 2) 2); [cdet|veqs|lra].
      1: right; left; apply (HM (- 11 / 4) (- 5 / 2)); [cdet|veqs|lra].
      2: right; left; apply (HM (3 / 2) (9 / 4)); [cdet|veqs|lra].
      2: right; left; apply (HM (- 7 / 2) (- 3)); [cdet|veqs|lra].
      all: right; right; destruct (small_norms _ _ W1 W3) as (_ & N1 & _), (small_norms _ _ W3 W1) as (_ & N2 & _);
        unfold both_level; split; [unfold rise; cbn; ring|]; split; [unfold rise; cbn; ring|]; split; [lra|]; split; [lra|];
        apply Rle_trans with (36 * 36); [apply Rmult_le_compat; try assumption; apply rnorm_nonneg|lra].
  - unfold exact, segs. rewrite four_exact. intros s [<-|[<-|[<-|[<-|[]]]]]; unfold left_to_right; cbn; lra.
  - split.
    + apply perm_eight.
    + repeat constructor; vm_compute; reflexivity.
  - unfold exact, segs. rewrite four_exact. eexists _, _. split; [reflexivity|]. split; [reflexivity|]. exists (mk2 (7/3) (7/3)). split; [exists (7/12)|exists (1/3)]; (split; [lra|veqs]).
Qed.
