(** * Property theorems: how much the sweep reports (C86) *)

From Coq Require Import List Arith Bool Lia Permutation Reals Lra Psatz FinFun.
From Verif Require Import Scalar Linal Result SpecReal VecR VecLemmas ModelShapes ModelIntersect ModelMesh ModelSweep SpecSweep
  ProofMesh ProofSweep ProofSweepRun PropIntersect PropSweep.
Import ListNotations.

Section Work.
  Context {S : Scalar} (L : Linal S) (dbg : bool) (os : ordered_set) (segs : list (segment S 2)).

  Lemma check_length out i j out' : check L dbg segs out i j = Ok out' -> length out' <= length out + 1.
  Proof.
    unfold check. destruct (at_ segs i) as [s| | | |]; try discriminate. cbn [bind]. destruct (at_ segs j) as [s'| | | |]; try discriminate. cbn [bind].
    destruct (intersect_segment2 L dbg (leps L) s s') as [[q|]| | | |]; try discriminate; cbn [bind]; intros E; apply Ok_inj in E; subst; [rewrite app_length; cbn|]; lia.
  Qed.
  Lemma step_length status out e status' out' : sweep_step L dbg os segs (status, out) e = Ok (status', out') ->
    length out' <= length out + (if ev_start e then 2 else 1).
  Proof.
    unfold sweep_step. destruct (ev_start e).
    - destruct (os_insert os (comp segs) status (ev_id e)) as [q st]. destruct (nth_error st q) as [it|].
      2:{ intros E. apply Ok_inj in E. injection E as _ <-. lia. }
      assert (A : forall o o1, match nth_error st (q + 1) with Some above => check L dbg segs o it above | None => Ok o end = Ok o1 -> length o1 <= length o + 1).
      { intros o o1. destruct (nth_error st (q + 1)); [apply check_length|intros E; apply Ok_inj in E; subst; lia]. }
      assert (B : forall o o1, match (if q =? 0 then None else nth_error st (q - 1)) with Some below => check L dbg segs o it below | None => Ok o end = Ok o1 -> length o1 <= length o + 1).
      { intros o o1. destruct (if q =? 0 then None else nth_error st (q - 1)); [apply check_length|intros E; apply Ok_inj in E; subst; lia]. }
      destruct (match nth_error st (q + 1) with Some above => _ | None => _ end) as [o1| | | |] eqn:E1; try discriminate. cbn [bind].
      destruct (match (if q =? 0 then None else _) with Some below => _ | None => _ end) as [o2| | | |] eqn:E2; try discriminate. cbn [bind].
      intros E. apply Ok_inj in E. injection E as _ <-. apply A in E1. apply B in E2. lia.
    - destruct (os_find os (comp segs) status (ev_id e)) as [q|].
      2:{ intros E. apply Ok_inj in E. injection E as _ <-. lia. }
      assert (A : forall o o1, match nth_error status (q + 1), (if q =? 0 then None else nth_error status (q - 1)) with
        | Some above, Some below => check L dbg segs o above below | _, _ => Ok o end = Ok o1 -> length o1 <= length o + 1).
      { intros o o1. destruct (nth_error status (q + 1)), (if q =? 0 then None else nth_error status (q - 1)); try apply check_length; intros E; apply Ok_inj in E; subst; lia. }
      destruct (match nth_error status (q + 1), _ with Some above, Some below => _ | _, _ => _ end) as [o1| | | |] eqn:E1; try discriminate. cbn [bind].
      intros E. apply Ok_inj in E. injection E as _ <-. apply A in E1. lia.
  Qed.
  Definition weight (evs : list (event S)) : nat := list_sum (map (fun e => if ev_start e then 2 else 1) evs).
  Lemma run_length evs : forall status out status' out',
    foldM (sweep_step L dbg os segs) evs (status, out) = Ok (status', out') -> length out' <= length out + weight evs.
  Proof.
    induction evs as [|e evs IH]; intros status out status' out'; cbn [foldM].
    - intros E. apply Ok_inj in E. injection E as _ <-. lia.
    - destruct (sweep_step L dbg os segs (status, out) e) as [[st1 o1]| | | |] eqn:E1; try discriminate. cbn [bind]. intros E.
      apply step_length in E1. apply IH in E. change (weight (e :: evs)) with ((if ev_start e then 2 else 1) + weight evs). lia.
  Qed.
  Lemma weight_events : weight (events segs) = 3 * length segs.
  Proof.
    unfold events.
    assert (H : forall (l : list (segment S 2)) k, weight (flat_map (fun '(i, s) => [mkEvent (g_source s) i true; mkEvent (g_target s) i false]) (combine (seq k (length l)) l)) = 3 * length l).
    { induction l as [|s l IH]; intros k; [reflexivity|]. cbn [length seq combine flat_map]. unfold weight in *. rewrite map_app, list_sum_app, IH. cbn. lia. }
    apply H.
  Qed.
  Lemma weight_perm evs evs' : Permutation evs evs' -> weight evs = weight evs'.
  Proof.
    assert (C : forall e l, weight (e :: l) = (if ev_start e then 2 else 1) + weight l) by reflexivity.
    induction 1; rewrite ?C; lia.
  Qed.
End Work.

(** ** C86: at most three points per segment are reported, for any scalar type, set,
    comparison and order of the events ... *)
Theorem C86_linear :
  forall (S : Scalar) (L : Linal S) (dbg : bool) (os : ordered_set) (segs : list (segment S 2)) (evs : list (event S)) out,
    Permutation (events segs) evs -> sweep L dbg os segs evs = Ok out -> length out <= 3 * length segs.
Proof.
  intros S L dbg os segs evs out Hp E. unfold sweep in E. destruct (foldM _ evs _) as [[st o]| | | |] eqn:R; try discriminate. cbn [bind] in E. apply Ok_inj in E. subst o.
  apply run_length in R. rewrite <- (weight_perm _ _ Hp), weight_events in R. exact R.
Qed.
Print Assumptions C86_linear.

Lemma missing_count {A} (dec : forall x y : A, {x = y} + {x <> y}) (pts out : list A) : NoDup pts ->
  exists missed, NoDup missed /\ incl missed pts /\ (forall q, In q missed -> ~ In q out) /\ length pts <= length missed + length out.
Proof.
  intros Hn. pose (f := fun q => if in_dec dec q out then true else false).
  exists (filter (fun q => negb (f q)) pts). split; [now apply NoDup_filter|]. split; [intros q Hq; now apply filter_In in Hq|]. split.
  - intros q Hq. apply filter_In in Hq as (_ & Hq). unfold f in Hq. destruct (in_dec dec q out); [discriminate|assumption].
  - assert (Hs : forall l, length l = length (filter f l) + length (filter (fun q => negb (f q)) l)) by (induction l as [|a l IH]; [reflexivity|]; cbn; destruct (f a); cbn; lia).
    rewrite (Hs pts).
    assert (length (filter f pts) <= length out); [|lia]. apply NoDup_incl_length; [now apply NoDup_filter|].
    intros q Hq. apply filter_In in Hq as (_ & Hq). unfold f in Hq. destruct (in_dec dec q out); [assumption|discriminate].
Qed.

(** ... so that of [m] different crossings at least [m - 3 n] are missing *)
Theorem C86_missing :
  forall (S : Scalar) (dec : forall x y : S, {x = y} + {x <> y}) (L : Linal S) (dbg : bool) (os : ordered_set) (segs : list (segment S 2)) (evs : list (event S)) out (pts : list (vec S 2)),
    Permutation (events segs) evs -> sweep L dbg os segs evs = Ok out -> NoDup pts ->
    exists missed, NoDup missed /\ incl missed pts /\ (forall q, In q missed -> ~ In q out) /\ length pts <= length missed + 3 * length segs.
Proof.
  intros S dec L dbg os segs evs out pts Hp E Hn.
  assert (D : forall x y : vec S 2, {x = y} + {x <> y}).
  { intros [a [b []]] [c [d []]]. destruct (dec a c) as [<-|N]; [destruct (dec b d) as [<-|N]|].
    - left. reflexivity.
    - right. intros K. injection K. contradiction.
    - right. intros K. injection K. contradiction. }
  destruct (missing_count D pts out Hn) as (m & H1 & H2 & H3 & H4). exists m. repeat (split; [assumption|]).
  pose proof (C86_linear S L dbg os segs evs out Hp E). lia.
Qed.
Print Assumptions C86_missing.

(** *** All crossings are reported: refuted for arbitrarily large scenes.  A grid of
    [k] horizontal and [k] slanted segments in general position has k^2 crossings,
    of which at least k^2 - 6 k are not reported. *)
Local Open Scope R_scope.
Definition grid_row (k j : nat) : segment (RS 1) 2 := @mkSegment (RS 1) 2 (mk2 (-1) (INR j)) (mk2 (INR k + 1) (INR j)).
Definition grid_column (k i : nat) : segment (RS 1) 2 := @mkSegment (RS 1) 2 (mk2 (INR i) (-1)) (mk2 (INR i + 1 / 2) (INR k)).
Definition grid (k : nat) : list (segment (RS 1) 2) := map (grid_row k) (seq 0 k) ++ map (grid_column k) (seq 0 k).
Definition grid_point (k i j : nat) : vec R 2 := mk2 (INR i + (INR j + 1) / (2 * (INR k + 1))) (INR j).

Lemma grid_nth k i s : nth_error (grid k) i = Some s ->
  ((i < k)%nat /\ s = grid_row k i) \/ ((k <= i < k + k)%nat /\ s = grid_column k (i - k)).
Proof.
  unfold grid. intros E. assert (Li : (i < k + k)%nat).
  { assert (H : nth_error (map (grid_row k) (seq 0 k) ++ map (grid_column k) (seq 0 k)) i <> None) by congruence. apply nth_error_Some in H.
    rewrite app_length, !map_length, !seq_length in H. exact H. }
  destruct (lt_dec i k) as [H|H].
  - left. split; [exact H|]. rewrite nth_error_app1 in E by (rewrite map_length, seq_length; exact H).
    rewrite (map_nth_error (grid_row k) i (seq 0 k) (d := i)) in E; [congruence|].
    rewrite (nth_error_nth' (seq 0 k) 0%nat) by (rewrite seq_length; exact H). now rewrite seq_nth.
  - right. split; [lia|]. rewrite nth_error_app2 in E by (rewrite map_length, seq_length; lia). rewrite map_length, seq_length in E.
    rewrite (map_nth_error (grid_column k) (i - k) (seq 0 k) (d := (i - k)%nat)) in E; [congruence|].
    rewrite (nth_error_nth' (seq 0 k) 0%nat) by (rewrite seq_length; lia). rewrite seq_nth by lia. reflexivity.
Qed.
Lemma grid_nth_row k j : (j < k)%nat -> nth_error (grid k) j = Some (grid_row k j).
Proof.
  intros H. unfold grid. rewrite nth_error_app1 by (rewrite map_length, seq_length; exact H). apply map_nth_error.
  rewrite (nth_error_nth' (seq 0 k) 0%nat) by (rewrite seq_length; exact H). now rewrite seq_nth.
Qed.
Lemma grid_nth_column k i : (i < k)%nat -> nth_error (grid k) (k + i) = Some (grid_column k i).
Proof.
  intros H. unfold grid. rewrite nth_error_app2 by (rewrite map_length, seq_length; lia). rewrite map_length, seq_length. replace (k + i - k)%nat with i by lia.
  apply map_nth_error. rewrite (nth_error_nth' (seq 0 k) 0%nat) by (rewrite seq_length; exact H). now rewrite seq_nth.
Qed.

Lemma on_row k j (q : vec R 2) : on_segment (g_source (grid_row k j)) (g_target (grid_row k j)) q -> fst (snd q) = INR j /\ -1 <= fst q.
Proof.
  intros (t & Ht & ->). unfold grid_row. cbn [g_source g_target mk2]. cbn. split; [ring|]. pose proof (pos_INR k). nra.
Qed.
Lemma on_column k i (q : vec R 2) : on_segment (g_source (grid_column k i)) (g_target (grid_column k i)) q ->
  fst q = INR i + (fst (snd q) + 1) / (2 * (INR k + 1)) /\ -1 <= fst (snd q) /\ INR i <= fst q.
Proof.
  intros (t & Ht & ->). unfold grid_column. cbn [g_source g_target mk2]. cbn. pose proof (pos_INR k). split; [field; lra|]. split; nra.
Qed.

Lemma grid_position k : general_position 1 (grid k).
Proof.
  pose proof (pos_INR k) as K0. split.
  - intros s Hs. apply In_nth_error in Hs as (i & E). apply grid_nth in E as [(_ & ->)|(_ & ->)]; unfold left_to_right; cbn; lra.
  - intros i j s s' Hij E E' Hon.
    apply grid_nth in E as [(Hi & ->)|(Hi & ->)]; apply grid_nth in E' as [(Hj & ->)|(Hj & ->)].
    + apply on_row in Hon as (Hy & _). cbn in Hy. apply INR_eq in Hy. lia.
    + apply on_row in Hon as (Hy & _). cbn in Hy. pose proof (pos_INR i). lra.
    + apply on_column in Hon as (_ & _ & Hx). cbn in Hx. pose proof (pos_INR (i - k)). lra.
    + apply on_column in Hon as (Hx & _). cbn in Hx. replace ((-1 + 1) / (2 * (INR k + 1))) with 0 in Hx by (field; lra). rewrite Rplus_0_r in Hx. apply INR_eq in Hx. lia.
  - intros i j s s' Hij E E' (q & Hq & Hq').
    assert (P : 1 < Rabs ((INR k + 2) * (INR k + 1))) by (rewrite Rabs_pos_eq; nra).
    apply grid_nth in E as [(Hi & ->)|(Hi & ->)]; apply grid_nth in E' as [(Hj & ->)|(Hj & ->)].
    + apply on_row in Hq as (Hy & _). apply on_row in Hq' as (Hy' & _). rewrite Hy in Hy'. apply INR_eq in Hy'. lia.
    + replace (crossing _ _) with ((INR k + 2) * (INR k + 1)) by (unfold crossing, det2; cbn; ring). exact P.
    + replace (crossing _ _) with (- ((INR k + 2) * (INR k + 1))) by (unfold crossing, det2; cbn; ring). rewrite Rabs_Ropp. exact P.
    + apply on_column in Hq as (Hx & _). apply on_column in Hq' as (Hx' & _). rewrite Hx in Hx'. apply Rplus_eq_reg_r in Hx'. apply INR_eq in Hx'. lia.
Qed.

Definition grid_points (k : nat) : list (vec R 2) := map (fun ij => grid_point k (fst ij) (snd ij)) (list_prod (seq 0 k) (seq 0 k)).
Lemma NoDup_prod {A B} (l : list A) (l' : list B) : NoDup l -> NoDup l' -> NoDup (list_prod l l').
Proof.
  intros H H'. induction H as [|x l Hx H IH]; [constructor|]. cbn [list_prod].
  assert (H1 : NoDup (map (fun y => (x, y)) l')) by (apply Injective_map_NoDup; [intros a b E; congruence|exact H']).
  assert (D : forall z, In z (map (fun y => (x, y)) l') -> ~ In z (list_prod l l')).
  { intros z Hz Hz'. apply in_map_iff in Hz as (y & <- & _). apply in_prod_iff in Hz' as (K & _). contradiction. }
  revert H1 D. generalize (map (fun y => (x, y)) l'). induction l0 as [|z l0 IH0]; intros H1 D; [exact IH|]. inversion H1; subst. cbn. constructor.
  - intros K. apply in_app_or in K as [K|K]; [contradiction|]. apply (D z); [now left|exact K].
  - apply IH0; [assumption|]. intros w Hw. apply D. now right.
Qed.
Lemma grid_points_distinct k : NoDup (grid_points k) /\ length (grid_points k) = (k * k)%nat.
Proof.
  split.
  - apply Injective_map_NoDup; [|apply NoDup_prod; apply seq_NoDup]. intros [i j] [i' j'] E. cbn [fst snd] in E.
    injection E. intros E1 E2. apply INR_eq in E1. subst j'. apply Rplus_eq_reg_r in E2. apply INR_eq in E2. now subst.
  - unfold grid_points. rewrite map_length, prod_length, !seq_length. reflexivity.
Qed.

Theorem C86_grid_refuted :
  forall (k : nat) (L : Linal (RS 1)), LinalR L -> (forall n (v : vec R n), veq L v v = true) ->
  forall (dbg : bool) (os : ordered_set), set_like os ->
  forall evs : list (event (RS 1)), Permutation (events (grid k)) evs ->
  general_position 1 (grid k) /\ length (grid k) = (2 * k)%nat /\
  exists out missed, sweep L dbg os (grid k) evs = Ok out /\ NoDup missed /\ (k * k <= length missed + 6 * k)%nat /\
    forall q, In q missed -> ~ In q out /\
      exists i j s s', i <> j /\ nth_error (grid k) i = Some s /\ nth_error (grid k) j = Some s' /\
        on_segment (g_source s) (g_target s) q /\ on_segment (g_source s') (g_target s') q.
Proof.
  intros k L HL Hv dbg os Hos evs Hp. split; [apply grid_position|].
  assert (Hl : length (grid k) = (2 * k)%nat) by (unfold grid; rewrite app_length, !map_length, !seq_length; lia). split; [exact Hl|].
  destruct (C24_sweep_points 1 L HL Hv dbg os Hos (grid k) evs Hp) as (out & E & _). destruct (grid_points_distinct k) as (Hn & Hk).
  destruct (C86_missing (RS 1) Req_EM_T L dbg os (grid k) evs out (grid_points k) Hp E Hn) as (missed & M1 & M2 & M3 & M4).
  exists out, missed. split; [exact E|]. split; [exact M1|]. split; [change (length (grid_points k) <= length missed + 3 * length (grid k))%nat in M4; rewrite Hl in M4; change (@length (vec R 2) (grid_points k) <= length missed + 3 * (2 * k))%nat in M4; rewrite Hk in M4; lia|].
  intros q Hq. split; [now apply M3|]. apply M2 in Hq. apply in_map_iff in Hq as ([i j] & <- & Hij). apply in_prod_iff in Hij as (Hi & Hj).
  apply in_seq in Hi, Hj. cbn [fst snd]. exists j, (k + i)%nat, (grid_row k j), (grid_column k i). split; [lia|]. split; [apply grid_nth_row; lia|]. split; [apply grid_nth_column; lia|].
  pose proof (pos_INR k) as K0. pose proof (pos_INR i) as I0. pose proof (pos_INR j) as J0.
  assert (Ik : INR i + 1 <= INR k) by (rewrite <- S_INR; apply le_INR; lia). assert (Jk : INR j + 1 <= INR k) by (rewrite <- S_INR; apply le_INR; lia).
  set (t := (INR j + 1) / (INR k + 1)).
  assert (T : 0 <= t <= 1).
  { split; [apply Rmult_le_pos; [lra|left; apply Rinv_0_lt_compat; lra]|]. apply Rmult_le_reg_r with (INR k + 1); [lra|]. unfold t, Rdiv. rewrite Rmult_assoc, Rinv_l by lra. lra. }
  assert (Ex : (INR j + 1) / (2 * (INR k + 1)) = t / 2) by (unfold t; field; lra). split.
  - exists ((INR i + t / 2 + 1) / (INR k + 2)). split.
    + split; [apply Rmult_le_pos; [lra|left; apply Rinv_0_lt_compat; lra]|]. apply Rmult_le_reg_r with (INR k + 2); [lra|]. unfold Rdiv. rewrite Rmult_assoc, Rinv_l by lra. lra.
    + unfold grid_point. rewrite Ex. unfold grid_row. apply (f_equal2 (@mk2 R)); cbn; field; lra.
  - exists t. split; [exact T|]. unfold grid_point. rewrite Ex. unfold grid_column. apply (f_equal2 (@mk2 R)); cbn; unfold t; field; lra.
Qed.
Print Assumptions C86_grid_refuted.

(** non-vacuity: eight by eight, 64 crossings, 48 points at most; a standard set *)
Example C86_example : set_like list_set /\ Permutation (events (grid 8)) (events (grid 8)) /\ (8 * 8 > 6 * 8)%nat /\ LinalR (raw_linal (RS 1) 0) /\
  exists out, sweep (raw_linal (RS 1) 0) true list_set (grid 8) (events (grid 8)) = Ok out.
Proof.
  split; [apply list_set_like|]. split; [apply Permutation_refl|]. split; [lia|]. split; [apply raw_linal_R; lra|].
  destruct (C86_grid_refuted 8 (raw_linal (RS 1) 0) (raw_linal_R 1 0 (Rle_refl 0)) (raw_veq_refl 1 0) true list_set list_set_like (events (grid 8)) (Permutation_refl _)) as (_ & _ & out & _ & E & _).
  now exists out.
Qed.
