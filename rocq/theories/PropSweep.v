(** * Property theorems: the sweep over line segments (C24, C25, C53)

    std::set enters through the contracts [set_like] and [std_set], the priority
    queue through [pop_order] (SpecSweep.v): every theorem holds for every set and
    every order of simultaneous events allowed by the standard. *)

From Coq Require Import List Arith Bool Lia Permutation Sorted Reals Lra Psatz.
From Verif Require Import Scalar Linal Result SpecReal VecR VecLemmas ModelShapes ModelIntersect ModelMesh ModelSweep SpecSweep SpecTess
  ProofMesh ProofIntersect PropDistance PropIntersect ProofSweep ProofSweepReal ProofSweepTwo ProofSweepRun.
Import ListNotations.
Local Open Scope R_scope.

(** ** C24: only true intersections *)

(** for any scalar type, any comparison behaviour of the set, any order of the
    events: the sweep returns, or an assertion fails; every point is the
    intersection of two different segments *)
Theorem C24_sweep_sound :
  forall (S : Scalar) (L : Linal S) (dbg : bool) (os : ordered_set), set_like os ->
  forall (segs : list (segment S 2)) (evs : list (event S)), Permutation (events segs) evs ->
    returns_or_asserts dbg (sweep L dbg os segs evs) /\
    forall out q, sweep L dbg os segs evs = Ok out -> In q out ->
      exists i j s s', i <> j /\ nth_error segs i = Some s /\ nth_error segs j = Some s' /\
        intersect_segment2 L dbg (leps L) s s' = Ok (Some q).
Proof.
  intros S L dbg os Hos segs evs Hp. destruct (sweep_sound L dbg os Hos segs evs Hp) as [(out & E & F)|(-> & E)].
  - split; [left; eauto|]. intros out' q E' Hq. rewrite E in E'. apply Ok_inj in E'. subst out'. eapply Forall_forall in F; [exact F|exact Hq].
  - split; [right; auto|]. intros out q E'. rewrite E in E'. discriminate.
Qed.
Print Assumptions C24_sweep_sound.

(** over the reals no assertion fails, and every point lies on two different
    segments up to the tolerance of the segment intersection *)
Theorem C24_sweep_points :
  forall (M : R) (L : Linal (RS M)), LinalR L -> (forall n (v : vec R n), veq L v v = true) ->
  forall (dbg : bool) (os : ordered_set), set_like os ->
  forall (segs : list (segment (RS M) 2)) (evs : list (event (RS M))), Permutation (events segs) evs ->
  exists out, sweep L dbg os segs evs = Ok out /\
    forall q, In q out -> exists i j s s' t r, i <> j /\ nth_error segs i = Some s /\ nth_error segs j = Some s' /\
      - leps L <= t <= 1 + leps L /\ - leps L <= r <= 1 + leps L /\
      q = along (g_source s) (rsub (g_target s) (g_source s)) t /\
      q = along (g_source s') (rsub (g_target s') (g_source s')) r.
Proof.
  intros M L HL Hv dbg os Hos segs evs Hp. destruct (sweep_total L dbg os segs evs HL Hv Hos Hp) as (out & E & F). exists out. split; [exact E|].
  intros q Hq. eapply Forall_forall in F; [|exact Hq]. destruct F as (i & j & s & s' & Hij & Es & Es' & Eq).
  apply (segment2_sound HL (leps L) (lr_eps L HL)) in Eq as (t & r & Ht & Hr & E1 & E2). exists i, j, s, s', t, r. repeat (split; [assumption|]). assumption.
Qed.
Print Assumptions C24_sweep_points.

(** ** C25: all intersections exactly once *)

(** the sweep never misses that there is an intersection; without tolerance the
    output is nonempty exactly if two segments meet *)
Theorem C25_detects :
  forall (M : R) (L : Linal (RS M)), LinalR L -> (forall n (v : vec R n), veq L v v = true) ->
  forall (dbg : bool) (os : ordered_set), std_set os ->
  forall (segs : list (segment (RS M) 2)) (evs : list (event (RS M))),
    general_position (leps L) segs -> pop_order segs evs ->
    exists out, sweep L dbg os segs evs = Ok out /\
      ((exists i j s s', i <> j /\ nth_error segs i = Some s /\ nth_error segs j = Some s' /\ meet s s') -> out <> []) /\
      (leps L = 0 -> out <> [] ->
       exists i j s s', i <> j /\ nth_error segs i = Some s /\ nth_error segs j = Some s' /\ meet s s').
Proof.
  intros M L HL Hv dbg os Hos segs evs Hgp Hpop. destruct (C24_sweep_points M L HL Hv dbg os (ss_like _ Hos) segs evs (proj1 Hpop)) as (out & E & F).
  exists out. split; [exact E|]. split.
  - intros Hm ->. exact (sweep_detects L dbg os segs evs HL Hv Hos Hgp Hpop Hm E).
  - intros He Hne. destruct out as [|q out]; [congruence|]. destruct (F q (or_introl eq_refl)) as (i & j & s & s' & t & r & Hij & Es & Es' & Ht & Hr & E1 & E2).
    rewrite He in *. exists i, j, s, s'. repeat (split; [assumption|]). exists q. split; [exists t|exists r]; (split; [lra|assumption]).
Qed.
Print Assumptions C25_detects.

(** every pair is reported, and only once, provided that no vertical line meets
    three segments.  Missing for the full property: any number of segments on a
    vertical line, which is refuted below. *)
Theorem C25_two_partial :
  forall (M : R) (L : Linal (RS M)), LinalR L -> (forall n (v : vec R n), veq L v v = true) -> leps L = 0 ->
  forall (dbg : bool) (os : ordered_set), std_set os ->
  forall (segs : list (segment (RS M) 2)) (evs : list (event (RS M))),
    general_position 0 segs -> pop_order segs evs ->
    (forall x i j k s s' s'', i <> j -> j <> k -> i <> k -> nth_error segs i = Some s -> nth_error segs j = Some s' -> nth_error segs k = Some s'' ->
      ~ (spans s x /\ spans s' x /\ spans s'' x)) ->
    exists out, sweep L dbg os segs evs = Ok out /\ reports_once segs out.
Proof.
  intros M L HL Hv He dbg os Hos segs evs Hgp Hpop H3. apply sweep_two; try assumption.
  - rewrite He. exact Hgp.
  - intros x i j k Hij Hjk Hik (s & Es & Hs) (s' & Es' & Hs') (s'' & Es'' & Hs''). apply (H3 x i j k s s' s''); auto.
Qed.
Print Assumptions C25_two_partial.

(** *** Refutations *)
Ltac cases3 i E := destruct i as [|[|[|i]]]; [cbn in E; injection E as <-|cbn in E; injection E as <-|cbn in E; injection E as <-|destruct i; discriminate E].
Ltac cases2 i E := destruct i as [|[|i]]; [cbn in E; injection E as <-|cbn in E; injection E as <-|destruct i; discriminate E].
Ltac no_meet := let q := fresh "q" in let t := fresh "t" in let r := fresh "r" in
  intros (q & (t & ? & ?) & (r & ? & ?)); subst q; match goal with H : @eq _ (along _ _ _) (along _ _ _) |- _ => cbn in H; injection H end; intros; lra.
Ltac det_pos := intros _; unfold crossing, det2; cbn; unfold Rabs; destruct (Rcase_abs _); lra.
Ltac miss := eapply check_miss; [assumption|assumption|reflexivity|reflexivity|];
  cbn; intros t r Ht Hr Eq; injection Eq; intros; lra.

(** three segments in general position, all x coordinates different: the first and the
    second swap at (5/2, 0), but the status keeps the old order, so that the second and
    the third never become neighbours *)
Definition segs_miss : list (segment (RS 1) 2) := [seg2 0 0 10 0; seg2 1 3 7 (-9); seg2 2 (-3) 9 (-3)].
Definition evs_miss : list (event (RS 1)) :=
  [@mkEvent (RS 1) (mk2 0 0) 0 true; @mkEvent (RS 1) (mk2 1 3) 1 true; @mkEvent (RS 1) (mk2 2 (-3)) 2 true;
   @mkEvent (RS 1) (mk2 7 (-9)) 1 false; @mkEvent (RS 1) (mk2 9 (-3)) 2 false; @mkEvent (RS 1) (mk2 10 0) 0 false].

Lemma segs_miss_gp : general_position (1/100) segs_miss.
Proof.
  split.
  - intros s [<-|[<-|[<-|[]]]]; unfold left_to_right; cbn; lra.
  - intros i j s s' Hne Ei Ej. cases3 i Ei; cases3 j Ej; try congruence; intros (t & Ht & E); cbn in E; injection E; intros; lra.
  - intros i j s s' Hne Ei Ej. cases3 i Ei; cases3 j Ej; try congruence; first [det_pos | intros Hm; exfalso; revert Hm; no_meet].
Qed.

Lemma evs_miss_perm : Permutation (events segs_miss) evs_miss.
Proof.
  change (events segs_miss) with
    [@mkEvent (RS 1) (mk2 0 0) 0 true; @mkEvent (RS 1) (mk2 10 0) 0 false; @mkEvent (RS 1) (mk2 1 3) 1 true;
     @mkEvent (RS 1) (mk2 7 (-9)) 1 false; @mkEvent (RS 1) (mk2 2 (-3)) 2 true; @mkEvent (RS 1) (mk2 9 (-3)) 2 false].
  unfold evs_miss. apply perm_skip.
  apply (Permutation_trans (Permutation_cons_append _ _)). cbn [app]. apply perm_skip. apply perm_swap.
Qed.
Lemma segs_miss_order evs : pop_order segs_miss evs -> evs = evs_miss.
Proof.
  apply pop_unique; [exact evs_miss_perm|]. unfold evs_miss. repeat constructor; unfold ex; cbn; lra.
Qed.
Ltac cmp_by x y y' := eapply (comp_lt _ _ _ _ _ _ _ _ _ _ _ x y y');
  [reflexivity|reflexivity|unfold Rmax, Rmin; repeat destruct (Rle_dec _ _); lra|lra|lra|lra|lra|lra].

Lemma segs_miss_cmp : (comp segs_miss 2 0 = true /\ comp segs_miss 0 2 = false) /\ (comp segs_miss 2 1 = true /\ comp segs_miss 1 2 = false) /\
  (comp segs_miss 0 1 = true /\ comp segs_miss 1 0 = false).
Proof. split; [|split]; [cmp_by 2 (-3) 0|cmp_by 2 (-3) 1|cmp_by 1 0 3]. Qed.
Ltac chain_by H := pose proof H as C; repeat (exact (proj1 C) || exact (proj1 (proj2 C)) || exact (proj2 (proj2 C)) || constructor).

Section Runs.
  Context (L : Linal (RS 1)) (HL : LinalR L) (Hv : forall n (v : vec R n), veq L v v = true) (He : leps L <= 1/100).
  Context (dbg : bool) (os : ordered_set) (Hos : std_set os).
  Ltac hit := eapply check_hit; [assumption|assumption|reflexivity|reflexivity| | |].
  Lemma run_miss : sweep L dbg os segs_miss evs_miss = Ok [mk2 (5/2) 0].
  Proof.
    pose proof (lr_eps L HL) as He0.
    eapply go_sweep. unfold evs_miss.
    eapply go_run; [eapply (go_start L dbg os Hos segs_miss _ 0 [] []); [chain_by segs_miss_cmp|reflexivity|reflexivity]|].
    eapply go_run; [eapply (go_start L dbg os Hos segs_miss _ 1 [0%nat] []); [chain_by segs_miss_cmp|reflexivity|]|].
    { cbn [rev app hd_error]. hit.
      - apply (Rle_lt_trans _ _ _ He). unfold crossing, det2. cbn. unfold Rabs; destruct (Rcase_abs _); lra.
      - exists (1/4). split; [lra|]. instantiate (1 := mk2 (5/2) 0). veqs.
      - exists (1/4). split; [lra|]. veqs. }
    eapply go_run; [eapply (go_start L dbg os Hos segs_miss _ 2 [] [0; 1]%nat); [chain_by segs_miss_cmp| |reflexivity]|].
    { cbn [hd_error]. miss. }
    eapply go_run; [eapply (go_end L dbg os Hos segs_miss _ 1 [2; 0]%nat []); [chain_by segs_miss_cmp|reflexivity]|].
    eapply go_run; [eapply (go_end L dbg os Hos segs_miss _ 2 [] [0]%nat); [chain_by segs_miss_cmp|reflexivity]|].
    eapply go_run; [eapply (go_end L dbg os Hos segs_miss _ 0 [] []); [chain_by segs_miss_cmp|reflexivity]|].
    reflexivity.
  Qed.
End Runs.

Lemma Forall2_len {A B} (P : A -> B -> Prop) l l' : Forall2 P l l' -> length l = length l'.
Proof. induction 1; cbn; congruence. Qed.

Theorem C25_missed_refuted :
  general_position (1/100) segs_miss /\
  forall (L : Linal (RS 1)), LinalR L -> (forall n (v : vec R n), veq L v v = true) -> leps L <= 1/100 ->
  forall (dbg : bool) (os : ordered_set), std_set os ->
  forall (evs : list (event (RS 1))), pop_order segs_miss evs ->
  exists out, sweep L dbg os segs_miss evs = Ok out /\ ~ reports_once segs_miss out /\
    exists (q : vec R 2), on_segment (mk2 1 3) (mk2 7 (-9)) q /\ on_segment (mk2 2 (-3)) (mk2 9 (-3)) q /\ ~ In q out.
Proof.
  split; [exact segs_miss_gp|]. intros L HL Hv He dbg os Hos evs Hpop. apply segs_miss_order in Hpop. subst evs. exists [mk2 (5/2) 0].
  split; [apply (run_miss L HL Hv He dbg os Hos)|]. split.
  - intros (ps & Hnd & Hne & F & Hall).
    assert (M01 : meet (seg2 0 0 10 0) (seg2 1 3 7 (-9))).
    { exists (mk2 (5/2) 0). split; exists (1/4); (split; [lra|veqs]). }
    assert (M12 : meet (seg2 1 3 7 (-9)) (seg2 2 (-3) 9 (-3))).
    { exists (mk2 4 (-3)). split; [exists (1/2)|exists (2/7)]; (split; [lra|veqs]). }
    apply Forall2_len in F. destruct ps as [|p [|? ?]]; try discriminate F.
    destruct (Hall 0%nat 1%nat _ _ (Nat.neq_succ_diag_r 0) eq_refl eq_refl M01) as [[->|[]]|[->|[]]];
      destruct (Hall 1%nat 2%nat _ _ (Nat.neq_succ_diag_r 1) eq_refl eq_refl M12) as [[K|[]]|[K|[]]]; discriminate K.
  - exists (mk2 4 (-3)). split; [exists (1/2); split; [lra|veqs]|]. split; [exists (2/7); split; [lra|veqs]|].
    intros [K|[]]. injection K. intros. lra.
Qed.
Print Assumptions C25_missed_refuted.

(** the crossing of the first two is reported when the second starts and again when
    the third, which lies between them, ends *)
Definition segs_dup : list (segment (RS 1) 2) := [seg2 0 1 10 (-1); seg2 1 (-1) 9 1; seg2 2 0 3 0].
Definition evs_dup : list (event (RS 1)) :=
  [@mkEvent (RS 1) (mk2 0 1) 0 true; @mkEvent (RS 1) (mk2 1 (-1)) 1 true; @mkEvent (RS 1) (mk2 2 0) 2 true;
   @mkEvent (RS 1) (mk2 3 0) 2 false; @mkEvent (RS 1) (mk2 9 1) 1 false; @mkEvent (RS 1) (mk2 10 (-1)) 0 false].
Lemma segs_dup_gp : general_position (1/100) segs_dup.
Proof.
  split.
  - intros s [<-|[<-|[<-|[]]]]; unfold left_to_right; cbn; lra.
  - intros i j s s' Hne Ei Ej. cases3 i Ei; cases3 j Ej; try congruence; intros (t & Ht & E); cbn in E; injection E; intros; lra.
  - intros i j s s' Hne Ei Ej. cases3 i Ei; cases3 j Ej; try congruence; first [det_pos | intros Hm; exfalso; revert Hm; no_meet].
Qed.
Lemma segs_dup_order evs : pop_order segs_dup evs -> evs = evs_dup.
Proof.
  apply pop_unique.
  - change (events segs_dup) with
      [@mkEvent (RS 1) (mk2 0 1) 0 true; @mkEvent (RS 1) (mk2 10 (-1)) 0 false; @mkEvent (RS 1) (mk2 1 (-1)) 1 true;
       @mkEvent (RS 1) (mk2 9 1) 1 false; @mkEvent (RS 1) (mk2 2 0) 2 true; @mkEvent (RS 1) (mk2 3 0) 2 false].
    unfold evs_dup. apply perm_skip.
    apply (Permutation_trans (Permutation_cons_append _ _)). cbn [app]. apply perm_skip.
    apply (Permutation_trans (perm_swap _ _ _)). apply perm_skip. apply perm_swap.
  - unfold evs_dup. repeat constructor; unfold ex; cbn; lra.
Qed.
Lemma segs_dup_cmp : (comp segs_dup 1 2 = true /\ comp segs_dup 2 1 = false) /\ (comp segs_dup 1 0 = true /\ comp segs_dup 0 1 = false) /\
  (comp segs_dup 2 0 = true /\ comp segs_dup 0 2 = false).
Proof. split; [|split]; [cmp_by 2 (-3/4) 0|cmp_by 1 (-1) (4/5)|cmp_by 2 0 (3/5)]. Qed.

Lemma run_dup (L : Linal (RS 1)) (HL : LinalR L) (Hv : forall n (v : vec R n), veq L v v = true) (He : leps L <= 1/100) dbg os (Hos : std_set os) :
  sweep L dbg os segs_dup evs_dup = Ok [mk2 5 0; mk2 5 0].
Proof.
  pose proof (lr_eps L HL) as He0.
  assert (Hhit : forall out, check L dbg segs_dup out 1 0 = Ok (out ++ [mk2 5 0]) /\ check L dbg segs_dup out 0 1 = Ok (out ++ [mk2 5 0])).
  { intros out. split; (eapply check_hit; [assumption|assumption|reflexivity|reflexivity| | |];
      [apply (Rle_lt_trans _ _ _ He); unfold crossing, det2; cbn; unfold Rabs; destruct (Rcase_abs _); lra|
       exists (1/2); split; [lra|veqs]|exists (1/2); split; [lra|veqs]]). }
  eapply go_sweep. unfold evs_dup.
  eapply go_run; [eapply (go_start L dbg os Hos segs_dup _ 0 [] []); [chain_by segs_dup_cmp|reflexivity|reflexivity]|].
  eapply go_run; [eapply (go_start L dbg os Hos segs_dup _ 1 [] [0%nat]); [chain_by segs_dup_cmp|apply Hhit|reflexivity]|].
  eapply go_run; [eapply (go_start L dbg os Hos segs_dup _ 2 [1%nat] [0%nat]); [chain_by segs_dup_cmp| |]|].
  { cbn [hd_error]. miss. }
  { cbn [rev app hd_error]. miss. }
  eapply go_run; [eapply (go_end L dbg os Hos segs_dup _ 2 [1%nat] [0%nat]); [chain_by segs_dup_cmp|apply Hhit]|].
  eapply go_run; [eapply (go_end L dbg os Hos segs_dup _ 1 [] [0%nat]); [chain_by segs_dup_cmp|reflexivity]|].
  eapply go_run; [eapply (go_end L dbg os Hos segs_dup _ 0 [] []); [chain_by segs_dup_cmp|reflexivity]|].
  reflexivity.
Qed.

Theorem C25_duplicate_refuted :
  general_position (1/100) segs_dup /\
  forall (L : Linal (RS 1)), LinalR L -> (forall n (v : vec R n), veq L v v = true) -> leps L <= 1/100 ->
  forall (dbg : bool) (os : ordered_set), std_set os ->
  forall (evs : list (event (RS 1))), pop_order segs_dup evs ->
  exists (q : vec R 2) (out : list (vec R 2)), sweep L dbg os segs_dup evs = Ok out /\ ~ reports_once segs_dup out /\ out = [q; q] /\
    (* one pair of segments only has a common point *)
    forall i j s s', (i < j)%nat -> nth_error segs_dup i = Some s -> nth_error segs_dup j = Some s' -> meet s s' -> i = 0%nat /\ j = 1%nat.
Proof.
  split; [exact segs_dup_gp|]. intros L HL Hv He dbg os Hos evs Hpop. apply segs_dup_order in Hpop. subst evs. exists (mk2 5 0), [mk2 5 0; mk2 5 0].
  split; [apply (run_dup L HL Hv He dbg os Hos)|].
  assert (Hone : forall i j s s', (i < j)%nat -> nth_error segs_dup i = Some s -> nth_error segs_dup j = Some s' -> meet s s' -> i = 0%nat /\ j = 1%nat).
  { intros i j s s' Hij Ei Ej. cases3 i Ei; cases3 j Ej; try (exfalso; lia); try (intros _; auto; fail); intros Hm; exfalso; revert Hm; no_meet. }
  split; [|split; [reflexivity|exact Hone]].
  intros (ps & Hnd & Hne & F & Hall).
  assert (Hps : forall i j, In (i, j) ps -> (i, j) = (0, 1)%nat \/ (i, j) = (1, 0)%nat).
  { assert (G : forall i j, In (i, j) ps -> exists s s', nth_error segs_dup i = Some s /\ nth_error segs_dup j = Some s' /\ meet s s').
    { clear - F. induction F as [|[a b] q ps out (s & s' & Es & Es' & O1 & O2) F IH]; [intros ? ? []|].
      intros i j [K|K]; [|apply IH, K]. injection K as <- <-. exists s, s'. split; [exact Es|]. split; [exact Es'|]. exists q. auto. }
    intros i j Hin. destruct (G i j Hin) as (s & s' & Es & Es' & Hm). destruct (Hne i j Hin) as (Hd & _).
    destruct (Nat.lt_trichotomy i j) as [Hl|[Hl|Hl]]; [|contradiction|].
    - destruct (Hone i j s s' Hl Es Es' Hm) as (-> & ->). auto.
    - destruct Hm as (q & O1 & O2). destruct (Hone j i s' s Hl Es' Es) as (-> & ->); [exists q; auto|]. auto. }
  apply Forall2_len in F. destruct ps as [|[a b] [|[c d] [|? ?]]]; try discriminate F.
  inversion Hnd as [|? ? N1 _]; subst. destruct (Hne a b (or_introl eq_refl)) as (_ & N2).
  destruct (Hps a b (or_introl eq_refl)) as [K|K], (Hps c d (or_intror (or_introl eq_refl))) as [K'|K']; injection K as -> ->; injection K' as -> ->.
  - apply N1. left. reflexivity.
  - apply N2. right. left. reflexivity.
  - apply N2. right. left. reflexivity.
  - apply N1. left. reflexivity.
Qed.
Print Assumptions C25_duplicate_refuted.

(** segments given from right to left: their end events come first and are ignored *)
Definition segs_left : list (segment (RS 1) 2) := [seg2 10 1 0 (-1); seg2 11 (-1) 1 1; seg2 (-8) 0 (-10) 0].
Definition evs_left : list (event (RS 1)) :=
  [@mkEvent (RS 1) (mk2 (-10) 0) 2 false; @mkEvent (RS 1) (mk2 (-8) 0) 2 true; @mkEvent (RS 1) (mk2 0 (-1)) 0 false;
   @mkEvent (RS 1) (mk2 1 1) 1 false; @mkEvent (RS 1) (mk2 10 1) 0 true; @mkEvent (RS 1) (mk2 11 (-1)) 1 true].
Lemma segs_left_order evs : pop_order segs_left evs -> evs = evs_left.
Proof.
  apply pop_unique.
  - change (events segs_left) with
      [@mkEvent (RS 1) (mk2 10 1) 0 true; @mkEvent (RS 1) (mk2 0 (-1)) 0 false; @mkEvent (RS 1) (mk2 11 (-1)) 1 true;
       @mkEvent (RS 1) (mk2 1 1) 1 false; @mkEvent (RS 1) (mk2 (-8) 0) 2 true; @mkEvent (RS 1) (mk2 (-10) 0) 2 false].
    unfold evs_left. apply Permutation_sym. apply (Permutation_trans (Permutation_rev _)). cbn [rev app].
    apply (Permutation_trans (perm_swap _ _ _)). apply perm_skip.
    apply (Permutation_trans (perm_skip _ (perm_swap _ _ _))). apply (Permutation_trans (perm_swap _ _ _)). apply perm_skip. apply perm_skip. apply perm_skip.
    apply Permutation_refl.
  - unfold evs_left. repeat constructor; unfold ex; cbn; lra.
Qed.
Lemma segs_left_cmp : (comp segs_left 0 2 = true /\ comp segs_left 2 0 = false) /\ (comp segs_left 0 1 = true /\ comp segs_left 1 0 = false) /\
  (comp segs_left 2 1 = true /\ comp segs_left 1 2 = false).
Proof. split; [|split]; [cmp_by 0 (-1) 0|cmp_by 1 (-4/5) 1|cmp_by 1 0 1]. Qed.
Lemma run_left (L : Linal (RS 1)) (HL : LinalR L) (Hv : forall n (v : vec R n), veq L v v = true) (He : leps L <= 1/100) dbg os (Hos : std_set os) :
  sweep L dbg os segs_left evs_left = Ok [].
Proof.
  pose proof (lr_eps L HL) as He0. eapply go_sweep. unfold evs_left.
  eapply go_run; [eapply (step_end_absent L dbg os Hos segs_left _ 2 [] []); chain_by segs_left_cmp|].
  eapply go_run; [eapply (go_start L dbg os Hos segs_left _ 2 [] []); [chain_by segs_left_cmp|reflexivity|reflexivity]|].
  eapply go_run; [eapply (step_end_absent L dbg os Hos segs_left _ 0 [] [2%nat]); chain_by segs_left_cmp|].
  eapply go_run; [eapply (step_end_absent L dbg os Hos segs_left _ 1 [2%nat] []); chain_by segs_left_cmp|].
  eapply go_run; [eapply (go_start L dbg os Hos segs_left _ 0 [] [2%nat]); [chain_by segs_left_cmp| |reflexivity]|].
  { cbn [hd_error]. miss. }
  eapply go_run; [eapply (go_start L dbg os Hos segs_left _ 1 [0; 2]%nat []); [chain_by segs_left_cmp|reflexivity|]|].
  { cbn [rev app hd_error]. miss. }
  reflexivity.
Qed.
Theorem C25_right_to_left_refuted :
  forall (L : Linal (RS 1)), LinalR L -> (forall n (v : vec R n), veq L v v = true) -> leps L <= 1/100 ->
  forall (dbg : bool) (os : ordered_set), std_set os ->
  forall (evs : list (event (RS 1))), pop_order segs_left evs ->
    sweep L dbg os segs_left evs = Ok [] /\
    exists (q : vec R 2), on_segment (mk2 10 1) (mk2 0 (-1)) q /\ on_segment (mk2 11 (-1)) (mk2 1 1) q.
Proof.
  intros L HL Hv He dbg os Hos evs Hpop. apply segs_left_order in Hpop. subst evs. split; [apply (run_left L HL Hv He dbg os Hos)|].
  exists (mk2 (11/2) (1/10)). split; [exists (9/20)|exists (11/20)]; (split; [lra|veqs]).
Qed.
Print Assumptions C25_right_to_left_refuted.

(** a segment that starts on another one is equivalent to it and is not inserted *)
Definition segs_tee : list (segment (RS 1) 2) := [seg2 0 0 4 4; seg2 1 1 5 0].
Definition evs_tee : list (event (RS 1)) :=
  [@mkEvent (RS 1) (mk2 0 0) 0 true; @mkEvent (RS 1) (mk2 1 1) 1 true; @mkEvent (RS 1) (mk2 4 4) 0 false; @mkEvent (RS 1) (mk2 5 0) 1 false].
Lemma segs_tee_order evs : pop_order segs_tee evs -> evs = evs_tee.
Proof.
  apply pop_unique.
  - change (events segs_tee) with
      [@mkEvent (RS 1) (mk2 0 0) 0 true; @mkEvent (RS 1) (mk2 4 4) 0 false; @mkEvent (RS 1) (mk2 1 1) 1 true; @mkEvent (RS 1) (mk2 5 0) 1 false].
    unfold evs_tee. apply perm_skip. apply perm_swap.
  - unfold evs_tee. repeat constructor; unfold ex; cbn; lra.
Qed.
Lemma segs_tee_cmp i j : comp segs_tee i j = false.
Proof.
  assert (K : comp segs_tee 0 1 = Rltb 1 1 /\ comp segs_tee 1 0 = Rltb 1 1).
  { eapply (comp_val segs_tee 0 1 _ _ _ _ _ _ _ _ 1 1 1); [reflexivity|reflexivity|unfold Rmax, Rmin; repeat destruct (Rle_dec _ _); lra|lra|lra|lra|lra]. }
  assert (K' : Rltb 1 1 = false) by (unfold Rltb; destruct (Rlt_dec 1 1); [lra|reflexivity]). rewrite K' in K.
  destruct (Nat.eq_dec i j) as [->|Hij]; [apply comp_self|].
  assert (N : forall k, nth_error segs_tee (S (S k)) = None) by (intros k; destruct k; reflexivity).
  destruct i as [|[|i]]; [| |unfold comp; rewrite N; reflexivity]; (destruct j as [|[|j]]; [| |unfold comp; rewrite N; reflexivity]);
    try congruence; apply K.
Qed.
Theorem C25_touching_refuted :
  forall (L : Linal (RS 1)) (dbg : bool) (os : ordered_set), std_set os ->
  forall (evs : list (event (RS 1))), pop_order segs_tee evs ->
    sweep L dbg os segs_tee evs = Ok [] /\
    exists (q : vec R 2), on_segment (mk2 0 0) (mk2 4 4) q /\ on_segment (mk2 1 1) (mk2 5 0) q.
Proof.
  intros L dbg os Hos evs Hpop. apply segs_tee_order in Hpop. subst evs. split.
  - assert (Hsw : forall l, strict_weak (comp segs_tee) l).
    { intros l. split; intros; rewrite ?segs_tee_cmp; auto. rewrite segs_tee_cmp in *. discriminate. }
    eapply go_sweep. unfold evs_tee.
    eapply go_run; [eapply (go_start L dbg os Hos segs_tee _ 0 [] []); [repeat constructor|reflexivity|reflexivity]|]. cbn [app].
    eapply go_run.
    { cbn [sweep_step ev_start ev_id]. destruct (os_insert os (comp segs_tee) [0%nat] 1%nat) as [p l] eqn:E.
      pose proof (ss_insert os Hos _ _ _ _ _ (Hsw _) (SSorted_cons _ (SSorted_nil _) (Forall_nil _)) E) as [(-> & y & Hy & _)|(l1 & l2 & El & -> & _ & Hs)].
      - destruct p as [|p]; [|destruct p; discriminate Hy]. cbn. reflexivity.
      - exfalso. destruct l1 as [|a l1]; cbn in El, Hs.
        + subst l2. apply StronglySorted_inv in Hs as (_ & F). inversion F as [|? ? K _]. rewrite segs_tee_cmp in K. discriminate K.
        + apply StronglySorted_inv in Hs as (_ & F). eapply Forall_forall in F; [|apply in_or_app; right; left; reflexivity].
          rewrite segs_tee_cmp in F. discriminate F. }
    eapply go_run; [eapply (go_end L dbg os Hos segs_tee _ 0 [] []); [repeat constructor|reflexivity]|]. cbn [app].
    eapply go_run; [|reflexivity]. cbn [sweep_step ev_start ev_id].
    pose proof (ss_find os Hos (comp segs_tee) [] 1%nat (Hsw _) (SSorted_nil _)) as H. destruct (os_find os (comp segs_tee) [] 1) as [p|]; [|reflexivity].
    destruct H as (y & Hy & _). destruct p; discriminate Hy.
  - exists (mk2 1 1). split; [exists (1/4)|exists 0]; (split; [lra|veqs]).
Qed.
Print Assumptions C25_touching_refuted.

(** the theorems' hypotheses are met by [list_set] and the listed events *)
Example C25_missed_example : sweep (raw_linal (RS 1) 0) true list_set segs_miss evs_miss = Ok [mk2 (5/2) 0].
Proof.
  apply run_miss; [apply raw_linal_R, Rle_refl|exact (raw_veq_refl 1 0)|cbn; lra|apply list_set_std].
Qed.
(** the sorted list that stands in for std::set in the examples keeps its contract, so
    the hypothesis of the theorems above can be met *)
Theorem C24_container : set_like list_set /\ std_set list_set.
Proof. split; [exact list_set_like|exact list_set_std]. Qed.
Print Assumptions C24_container.

Example C24_example : Permutation (events segs_miss) evs_miss /\ set_like list_set /\
  sweep (raw_linal (RS 1) 0) true list_set segs_miss evs_miss = Ok [mk2 (5/2) 0] /\
  intersect_segment2 (raw_linal (RS 1) 0) true 0 (seg2 1 3 7 (-9)) (seg2 0 0 10 0) = Ok (Some (mk2 (5/2) 0)).
Proof.
  split; [exact evs_miss_perm|]. split; [apply list_set_like|]. split; [exact C25_missed_example|].
  apply (segment2_complete (raw_linal_R 1 0 (Rle_refl 0)) 0 (Rle_refl 0) true); [exact (raw_veq_refl 1 0)| | |].
  - unfold det2. cbn. unfold Rabs; destruct (Rcase_abs _); lra.
  - exists (1/4). split; [lra|veqs].
  - exists (1/4). split; [lra|veqs].
Qed.
Example C25_detects_example : general_position (leps (raw_linal (RS 1) 0)) segs_miss /\ pop_order segs_miss evs_miss /\ std_set list_set /\
  meet (seg2 0 0 10 0) (seg2 1 3 7 (-9)).
Proof.
  split; [|split; [|split; [apply list_set_std|]]].
  - destruct segs_miss_gp as [G1 G2 G3]. split; [exact G1|exact G2|]. intros i j s s' Hne Ei Ej Hm. cbn. specialize (G3 i j s s' Hne Ei Ej Hm). lra.
  - split; [exact evs_miss_perm|]. unfold evs_miss. repeat constructor; cbn; unfold Rltb; destruct (Rlt_dec _ _); try reflexivity; exfalso; lra.
  - exists (mk2 (5/2) 0). split; exists (1/4); (split; [lra|veqs]).
Qed.
Example C25_two_example : exists out, sweep (raw_linal (RS 1) 0) true list_set [seg2 0 0 2 2; seg2 1 2 3 0]
    [@mkEvent (RS 1) (mk2 0 0) 0 true; @mkEvent (RS 1) (mk2 1 2) 1 true; @mkEvent (RS 1) (mk2 2 2) 0 false; @mkEvent (RS 1) (mk2 3 0) 1 false] = Ok out /\
    reports_once [seg2 0 0 2 2; seg2 1 2 3 0] out /\ out <> [].
Proof.
  assert (Hgp : general_position 0 [seg2 0 0 2 2; seg2 1 2 3 0]).
  { split.
    - intros s [<-|[<-|[]]]; unfold left_to_right; cbn; lra.
    - intros i j s s' Hne Ei Ej. cases2 i Ei; cases2 j Ej; try congruence; intros (t & Ht & E); cbn in E; injection E; intros; lra.
    - intros i j s s' Hne Ei Ej. cases2 i Ei; cases2 j Ej; try congruence; det_pos. }
  assert (Hp : pop_order [seg2 0 0 2 2; seg2 1 2 3 0]
    [@mkEvent (RS 1) (mk2 0 0) 0 true; @mkEvent (RS 1) (mk2 1 2) 1 true; @mkEvent (RS 1) (mk2 2 2) 0 false; @mkEvent (RS 1) (mk2 3 0) 1 false]).
  { split; [apply perm_skip, perm_swap|]. repeat constructor; cbn; unfold Rltb; destruct (Rlt_dec _ _); try reflexivity; exfalso; lra. }
  destruct (C25_two_partial 1 (raw_linal (RS 1) 0) (raw_linal_R 1 0 (Rle_refl 0)) (raw_veq_refl 1 0) eq_refl true list_set list_set_std
    _ _ Hgp Hp) as (out & E & H).
  - intros x i j k s s' s'' Hij Hjk Hik Ei Ej Ek. cases2 i Ei; cases2 j Ej; cases2 k Ek; congruence.
  - exists out. split; [exact E|]. split; [exact H|]. destruct H as (ps & _ & _ & F & Hall). intros ->. inversion F; subst.
    destruct (Hall 0%nat 1%nat _ _ (Nat.neq_succ_diag_r 0) eq_refl eq_refl) as [[]|[]].
    exists (mk2 (3/2) (3/2)). split; [exists (3/4)|exists (1/4)]; (split; [lra|veqs]).
Qed.

(** ** C53: the comparison handed to the set *)

(** it orders the segments that have a point on a vertical line, provided that they do
    not meet on that line or to the left of it *)
Theorem C53_strict_weak :
  forall (M : R) (segs : list (segment (RS M) 2)) (x : R) (l : list nat),
    (forall i, In i l -> exists s, nth_error segs i = Some s /\ left_to_right s /\ spans s x) ->
    (forall i j s s' (q : vec R 2), In i l -> In j l -> i <> j -> nth_error segs i = Some s -> nth_error segs j = Some s' ->
      on_segment (g_source s) (g_target s) q -> on_segment (g_source s') (g_target s') q -> x < fst q) ->
    strict_weak (comp segs) l /\
    forall i j s s', In i l -> In j l -> nth_error segs i = Some s -> nth_error segs j = Some s' ->
      comp segs i j = true <-> height s x < height s' x.
Proof.
  intros M segs x l Hl Hno.
  assert (K : forall i j s s', In i l -> In j l -> nth_error segs i = Some s -> nth_error segs j = Some s' ->
      comp segs i j = true <-> height s x < height s' x).
  { intros i j s s' Hi Hj Es Es'. destruct (Hl i Hi) as (s1 & E1 & H1 & S1). destruct (Hl j Hj) as (s2 & E2 & H2 & S2).
    rewrite Es in E1. injection E1 as <-. rewrite Es' in E2. injection E2 as <-.
    destruct (Nat.eq_dec i j) as [->|Hij].
    - rewrite Es in Es'. injection Es' as <-. rewrite comp_self. split; [discriminate|intros H; exfalso; exact (Rlt_irrefl _ H)].
    - unfold comp. rewrite Es, Es'. apply below_strict; try assumption. intros x' (T1 & T2 & T3).
      apply (Hno i j s s' (x', (height s x', tt)) Hi Hj Hij Es Es'); apply on_segment_height; cbn; auto. }
  split; [|exact K].
  apply (sw_rank (comp segs) (fun u => match nth_error segs u with Some s => height s x | None => 0 end)). intros u v Hu Hv.
  destruct (Hl u Hu) as (s1 & E1 & _). destruct (Hl v Hv) as (s2 & E2 & _). rewrite E1, E2. apply K; assumption.
Qed.
Print Assumptions C53_strict_weak.

Example C53_strict_weak_example : strict_weak (comp [seg2 0 0 4 0; seg2 1 2 3 1; seg2 0 3 5 3]) [0; 1; 2]%nat.
Proof.
  apply (C53_strict_weak 1 [seg2 0 0 4 0; seg2 1 2 3 1; seg2 0 3 5 3] 2).
  - intros i [<-|[<-|[<-|[]]]]; eexists; (split; [reflexivity|]); unfold left_to_right, spans; cbn; repeat split; lra.
  - intros i j s s' q _ _ Hne Ei Ej (t & Ht & ->) (r & Hr & E). exfalso. cases3 i Ei; cases3 j Ej; try congruence; cbn in E; injection E; intros; lra.
Qed.

(** once two segments have crossed, the comparison of a third one with them is
    cyclic: insertion into the set is then undefined behaviour *)
Definition segs_cycle : list (segment (RS 1) 2) := [seg2 0 2 10 (-2); seg2 1 (-2) 9 2; seg2 7 0 8 0].
Definition evs_cycle : list (event (RS 1)) :=
  [@mkEvent (RS 1) (mk2 0 2) 0 true; @mkEvent (RS 1) (mk2 1 (-2)) 1 true; @mkEvent (RS 1) (mk2 7 0) 2 true;
   @mkEvent (RS 1) (mk2 8 0) 2 false; @mkEvent (RS 1) (mk2 9 2) 1 false; @mkEvent (RS 1) (mk2 10 (-2)) 0 false].
Lemma segs_cycle_gp : general_position (1/100) segs_cycle.
Proof.
  split.
  - intros s [<-|[<-|[<-|[]]]]; unfold left_to_right; cbn; lra.
  - intros i j s s' Hne Ei Ej. cases3 i Ei; cases3 j Ej; try congruence; intros (t & Ht & E); cbn in E; injection E; intros; lra.
  - intros i j s s' Hne Ei Ej. cases3 i Ei; cases3 j Ej; try congruence; first [det_pos | intros Hm; exfalso; revert Hm; no_meet].
Qed.
Lemma segs_cycle_order evs : pop_order segs_cycle evs -> evs = evs_cycle.
Proof.
  apply pop_unique.
  - change (events segs_cycle) with
      [@mkEvent (RS 1) (mk2 0 2) 0 true; @mkEvent (RS 1) (mk2 10 (-2)) 0 false; @mkEvent (RS 1) (mk2 1 (-2)) 1 true;
       @mkEvent (RS 1) (mk2 9 2) 1 false; @mkEvent (RS 1) (mk2 7 0) 2 true; @mkEvent (RS 1) (mk2 8 0) 2 false].
    unfold evs_cycle. apply perm_skip.
    apply (Permutation_trans (Permutation_cons_append _ _)). cbn [app]. apply perm_skip.
    apply (Permutation_trans (perm_swap _ _ _)). apply perm_skip. apply perm_swap.
  - unfold evs_cycle. repeat constructor; unfold ex; cbn; lra.
Qed.
Theorem C53_cyclic_refuted :
  general_position (1/100) segs_cycle /\
  forall (L : Linal (RS 1)), LinalR L -> (forall n (v : vec R n), veq L v v = true) -> leps L <= 1/100 ->
  forall (dbg : bool) (os : ordered_set), std_set os ->
  forall (evs : list (event (RS 1))), pop_order segs_cycle evs ->
  exists pre e post status out, evs = pre ++ e :: post /\ ev_start e = true /\
    foldM (sweep_step L dbg os segs_cycle) pre ([], []) = Ok (status, out) /\
    ~ strict_weak (comp segs_cycle) (ev_id e :: status).
Proof.
  split; [exact segs_cycle_gp|]. intros L HL Hv He dbg os Hos evs Hpop. apply segs_cycle_order in Hpop. subst evs.
  pose proof (lr_eps L HL) as He0.
  assert (C10 : comp segs_cycle 1 0 = true /\ comp segs_cycle 0 1 = false) by cmp_by 1 (-2) (8/5).
  assert (C02 : comp segs_cycle 0 2 = true /\ comp segs_cycle 2 0 = false) by cmp_by 7 (-4/5) 0.
  assert (C21 : comp segs_cycle 2 1 = true /\ comp segs_cycle 1 2 = false) by cmp_by 7 0 1.
  exists [@mkEvent (RS 1) (mk2 0 2) 0 true; @mkEvent (RS 1) (mk2 1 (-2)) 1 true], (@mkEvent (RS 1) (mk2 7 0) 2 true),
    [@mkEvent (RS 1) (mk2 8 0) 2 false; @mkEvent (RS 1) (mk2 9 2) 1 false; @mkEvent (RS 1) (mk2 10 (-2)) 0 false], [1; 0]%nat, [mk2 5 0].
  split; [reflexivity|]. split; [reflexivity|]. split.
  - eapply go_run; [eapply (go_start L dbg os Hos segs_cycle _ 0 [] []); [repeat constructor|reflexivity|reflexivity]|].
    eapply go_run; [eapply (go_start L dbg os Hos segs_cycle _ 1 [] [0%nat]); [|eapply (check_hit L HL Hv dbg segs_cycle [] 1 0 _ _ (mk2 5 0))|reflexivity]|].
    + repeat (exact C10 || constructor).
    + reflexivity.
    + reflexivity.
    + apply (Rle_lt_trans _ _ _ He); unfold crossing, det2; cbn; unfold Rabs; destruct (Rcase_abs _); lra.
    + exists (1/2). split; [lra|veqs].
    + exists (1/2). split; [lra|veqs].
    + reflexivity.
  - intros [_ H _]. cbn [ev_id] in H.
    assert (K : comp segs_cycle 0 1 = true) by (apply (H 0%nat 2%nat 1%nat); [right; right; left|left|right; left|exact (proj1 C02)|exact (proj1 C21)]; reflexivity).
    rewrite (proj2 C10) in K. discriminate K.
Qed.
Print Assumptions C53_cyclic_refuted.

(** no segments meet: the precondition holds at every event *)
Theorem C53_run :
  forall (M : R) (L : Linal (RS M)), LinalR L -> (forall n (v : vec R n), veq L v v = true) -> leps L = 0 ->
  forall (dbg : bool) (os : ordered_set), std_set os ->
  forall (segs : list (segment (RS M) 2)) (evs : list (event (RS M))), pop_order segs evs ->
    (forall s, In s segs -> left_to_right s) ->
    (forall i j s s', i <> j -> nth_error segs i = Some s -> nth_error segs j = Some s' -> ~ meet s s') ->
    sweep L dbg os segs evs = Ok [] /\
    forall pre e post, evs = pre ++ e :: post ->
      exists status, foldM (sweep_step L dbg os segs) pre ([], []) = Ok (status, []) /\ strict_weak (comp segs) (ev_id e :: status) /\
        StronglySorted (fun i j => comp segs i j = true) status.
Proof.
  intros M L HL Hv He dbg os Hos segs evs Hpop Hr Hno.
  assert (Hgp : general_position (leps L) segs).
  { split; [exact Hr| |].
    - intros i j s s' Hij Es Es' Hon. apply (Hno i j s s' Hij Es Es'). exists (g_source s'). split; [exact Hon|].
      exists 0. split; [lra|]. destruct s' as [[ax [ay []]] [bx [by_ []]]]. unfold along. cbn.
      apply f_equal2; [symmetry; exact (eq_trans (f_equal (Rplus ax) (Rmult_0_l _)) (Rplus_0_r ax))|].
      apply f_equal2; [symmetry; exact (eq_trans (f_equal (Rplus ay) (Rmult_0_l _)) (Rplus_0_r ay))|reflexivity].
    - intros i j s s' Hij Es Es' Hm. exfalso. exact (Hno i j s s' Hij Es Es' Hm). }
  assert (Hsweep : sweep L dbg os segs evs = Ok []).
  { destruct (C25_detects M L HL Hv dbg os Hos segs evs Hgp Hpop) as (out & E & _ & H). rewrite E. f_equal.
    destruct out as [|q out]; [reflexivity|exfalso]. destruct (H He) as (i & j & s & s' & Hij & Es & Es' & Hm); [discriminate|].
    exact (Hno i j s s' Hij Es Es' Hm). }
  split; [exact Hsweep|].
  assert (Hrun : exists st, foldM (sweep_step L dbg os segs) evs ([], []) = Ok (st, [])).
  { unfold sweep in Hsweep. destruct (foldM (sweep_step L dbg os segs) evs ([], [])) as [[st out]| | | |]; try discriminate.
    cbn [bind] in Hsweep. apply Ok_inj in Hsweep. subst out. eauto. }
  destruct Hrun as (st & Hrun).
  assert (Hpre : forall pre post, evs = pre ++ post -> exists status, foldM (sweep_step L dbg os segs) pre ([], []) = Ok (status, [])).
  { intros pre post E. rewrite E, foldM_app in Hrun. destruct (foldM (sweep_step L dbg os segs) pre ([], [])) as [[st1 out1]| | | |]; try discriminate.
    cbn [bind] in Hrun. apply run_grows in Hrun as (m & K). symmetry in K. apply app_eq_nil in K as (-> & _). eauto. }
  assert (HX : forall X i j (s s' : segment (RS M) 2) x, i <> j -> nth_error segs i = Some s -> nth_error segs j = Some s' -> touch s s' x -> X <= x).
  { intros X i j s s' x Hij Es Es' Ht. exfalso. apply (Hno i j s s' Hij Es Es'). apply meet_touch; [apply Hr; eapply nth_error_In; eassumption..|]. eauto. }
  assert (Hinv : forall pre post, evs = pre ++ post -> forall status, foldM (sweep_step L dbg os segs) pre ([], []) = Ok (status, []) ->
    inv L dbg segs pre status).
  { induction pre as [|e pre IH] using rev_ind; intros post E status Est.
    - cbn in Est. apply Ok_inj in Est. injection Est as <-. split.
      + intros u. split; [intros []|]. intros ((s & _ & []) & _).
      + constructor.
      + intros u v (l1 & l2 & K). destruct l1; discriminate K.
    - rewrite <- app_assoc in E. cbn [app] in E. destruct (Hpre pre _ E) as (st1 & E1). rewrite foldM_app, E1 in Est. cbn [bind foldM] in Est.
      destruct (sweep_step L dbg os segs (st1, []) e) as [st2| | | |] eqn:E2; try discriminate. cbn [bind] in Est. apply Ok_inj in Est. subst st2.
      apply (inv_step L dbg os Hos segs Hgp (ex e + 1) (HX (ex e + 1)) evs Hpop pre e post st1 status E); [lra|apply (IH _ E st1 E1)|exact E2]. }
  intros pre e post E. destruct (Hpre pre _ E) as (status & Est). exists status. split; [exact Est|].
  destruct (Hinv pre _ E status Est) as [I1 I2 _]. split; [|exact I2].
  apply (rank_sw L segs Hgp (ex e + 1) (HX (ex e + 1)) (ex e)); [lra|]. intros u [<-|Hu].
  - assert (Hin : In e evs) by (rewrite E; apply in_or_app; right; left; reflexivity).
    apply (pop_In segs evs Hpop) in Hin as (i & s & Es & [->| ->]); exists s; (split; [exact Es|]);
      pose proof (seg_right L segs Hgp i s Es) as K; unfold left_to_right in K; unfold spans, ex; cbn [ev_point]; split; lra.
  - apply I1 in Hu as (H1 & H2). eapply active_spans; eassumption.
Qed.
Print Assumptions C53_run.

Example C53_run_example : exists evs, pop_order [seg2 0 0 4 0; seg2 1 2 3 1] evs /\
  sweep (raw_linal (RS 1) 0) true list_set [seg2 0 0 4 0; seg2 1 2 3 1] evs = Ok [].
Proof.
  exists [@mkEvent (RS 1) (mk2 0 0) 0 true; @mkEvent (RS 1) (mk2 1 2) 1 true; @mkEvent (RS 1) (mk2 3 1) 1 false; @mkEvent (RS 1) (mk2 4 0) 0 false].
  assert (Hp : pop_order [seg2 0 0 4 0; seg2 1 2 3 1]
    [@mkEvent (RS 1) (mk2 0 0) 0 true; @mkEvent (RS 1) (mk2 1 2) 1 true; @mkEvent (RS 1) (mk2 3 1) 1 false; @mkEvent (RS 1) (mk2 4 0) 0 false]).
  { split; [|repeat constructor; cbn; unfold Rltb; destruct (Rlt_dec _ _); try reflexivity; exfalso; lra].
    apply perm_skip. apply (Permutation_trans (Permutation_cons_append _ _)). apply Permutation_refl. }
  split; [exact Hp|].
  apply (C53_run 1 (raw_linal (RS 1) 0) (raw_linal_R 1 0 (Rle_refl 0)) (raw_veq_refl 1 0) eq_refl true list_set list_set_std _ _ Hp).
  - intros s [<-|[<-|[]]]; unfold left_to_right; cbn; lra.
  - intros i j s s' Hne Ei Ej. cases2 i Ei; cases2 j Ej; try congruence; no_meet.
Qed.
