(** * Concrete runs of the sweep *)

From Coq Require Import List Arith Bool Lia Permutation Sorted Reals Lra Psatz.
From Verif Require Import Scalar Linal Result SpecReal VecR VecLemmas ModelShapes ModelIntersect ModelMesh ModelSweep SpecSweep ProofMesh ProofIntersect ProofSweep ProofSweepReal ProofSweepTwo.
Import ListNotations.
Local Open Scope R_scope.

(** ** The sweep returns when the comparison of equal vectors succeeds *)
Lemma bind_not_trap {A B} (r : res A) (k : A -> res B) : r <> Trap -> (forall x, r = Ok x -> k x <> Trap) -> bind r k <> Trap.
Proof. destruct r; cbn; auto; discriminate. Qed.
Lemma check_not_trap {M} (L : Linal (RS M)) (HL : LinalR L) (Hv : forall n (v : vec R n), veq L v v = true) dbg segs out i j :
  check L dbg segs out i j <> Trap.
Proof.
  unfold check, at_. destruct (nth_error segs i) as [s|]; [|discriminate]. destruct (nth_error segs j) as [s'|]; [|discriminate]. cbn [bind].
  destruct (segment2_total HL (leps L) (lr_eps L HL) dbg s s' Hv) as (o & ->). discriminate.
Qed.
Lemma run_not_trap {M} (L : Linal (RS M)) (HL : LinalR L) (Hv : forall n (v : vec R n), veq L v v = true) dbg os segs evs :
  forall st, foldM (sweep_step L dbg os segs) evs st <> Trap.
Proof.
  induction evs as [|e evs IH]; intros [st out]; cbn [foldM]; [discriminate|]. apply bind_not_trap; [|intros x _; apply IH].
  unfold sweep_step. destruct (ev_start e).
  - destruct (os_insert os (comp segs) st (ev_id e)) as [p l]. destruct (nth_error l p) as [it|]; [|discriminate].
    apply bind_not_trap.
    + destruct (nth_error l (p + 1)); [apply (check_not_trap L HL Hv)|discriminate].
    + intros o1 _. apply bind_not_trap; [|discriminate]. destruct (if (p =? 0)%nat then _ else _); [apply (check_not_trap L HL Hv)|discriminate].
  - destruct (os_find os (comp segs) st (ev_id e)) as [p|]; [|discriminate]. apply bind_not_trap; [|discriminate].
    destruct (nth_error st (p + 1)); [|discriminate]. destruct (if (p =? 0)%nat then _ else _); [apply (check_not_trap L HL Hv)|discriminate].
Qed.
Lemma sweep_total {M} (L : Linal (RS M)) dbg os segs evs : LinalR L -> (forall n (v : vec R n), veq L v v = true) ->
  set_like os -> Permutation (events segs) evs -> exists out, sweep L dbg os segs evs = Ok out /\ Forall (justified L dbg segs) out.
Proof.
  intros HL Hv Hos Hp. destruct (sweep_sound L dbg os Hos segs evs Hp) as [H|(_ & H)]; [exact H|exfalso].
  revert H. unfold sweep. apply bind_not_trap; [apply (run_not_trap L HL Hv)|]. intros [? ?] _. discriminate.
Qed.

(** ** Events with different x coordinates have one order *)
Lemma pop_unique {M} (segs : list (segment (RS M) 2)) evs evs0 : Permutation (events segs) evs0 ->
  StronglySorted (fun e e' => ex e < ex e') evs0 -> pop_order segs evs -> evs = evs0.
Proof.
  intros Hp0 Hs0 (Hp & Hs). assert (Hq : Permutation evs0 evs) by (eapply Permutation_trans; [apply Permutation_sym, Hp0|exact Hp]).
  clear Hp Hp0 segs. revert evs Hq Hs. induction Hs0 as [|a r Hs0 IH F]; intros evs Hq Hs.
  - apply Permutation_nil in Hq. exact Hq.
  - destruct evs as [|b t]; [apply Permutation_sym, Permutation_nil in Hq; discriminate|].
    inversion Hs as [|? ? Fb Hs']; subst. assert (Hab : b = a).
    { assert (Hb : In b (a :: r)) by (apply (Permutation_in b (Permutation_sym Hq)); left; reflexivity).
      assert (Ha : In a (b :: t)) by (apply (Permutation_in a Hq); left; reflexivity).
      destruct Hb as [Hb|Hb]; [auto|]. destruct Ha as [Ha|Ha]; [auto|exfalso].
      eapply Forall_forall in F; [|exact Hb]. eapply Forall_forall in Fb; [|exact Ha]. apply Rltb_false_le in Fb. unfold ex in F.
      exact (Rlt_irrefl _ (Rlt_le_trans _ _ _ F Fb)). }
    subst b. f_equal. apply IH; [apply Permutation_cons_inv in Hq; exact Hq|exact Hs'].
Qed.

(** ** Orders given by a list *)
Lemma sw_chain {A} (comp : A -> A -> bool) l : StronglySorted (fun u v => comp u v = true /\ comp v u = false) l ->
  (forall u, In u l -> comp u u = false) -> strict_weak comp l.
Proof.
  induction 1 as [|a l Hs IH F]; intros Hself.
  - split; [intros x []|intros x y z []|intros x y z []].
  - assert (Hl : strict_weak comp l) by (apply IH; intros u Hu; apply Hself; right; exact Hu). clear IH.
    assert (Hu : forall u, In u l -> comp a u = true /\ comp u a = false) by (intros u Hu; eapply Forall_forall in F; eauto).
    pose proof (Hself a (or_introl eq_refl)) as Ha. destruct Hl as [S1 S2 S3]. split.
    + exact Hself.
    + intros x y z [<-|Hx] [<-|Hy] [<-|Hz]; try pose proof (Hu x Hx) as (? & ?); try pose proof (Hu y Hy) as (? & ?); try pose proof (Hu z Hz) as (? & ?);
        intros; try congruence. eapply (S2 x y z); eassumption.
    + intros x y z [<-|Hx] [<-|Hy] [<-|Hz]; try pose proof (Hu x Hx) as (? & ?); try pose proof (Hu y Hy) as (? & ?); try pose proof (Hu z Hz) as (? & ?);
        intros; try (split; congruence). eapply (S3 x y z); eassumption.
Qed.

(** ** Segments given by coordinates *)
Definition seg2 (a b c d : R) : segment (RS 1) 2 := @mkSegment (RS 1) 2 (mk2 a b) (mk2 c d).

Lemma compute_y_val a b c d x y : a <> c -> y * (c - a) = b * (c - a) + (d - b) * (x - a) -> compute_y (seg2 a b c d) x = y.
Proof.
  intros Hac Hy. unfold compute_y, seg2. cbn. unfold Reqb. destruct (Req_EM_T a c); [contradiction|].
  assert (E : y = b + (d - b) * (x - a) / (c - a)) by (apply (Rmult_eq_reg_r (c - a)); [|lra]; rewrite Hy; field; lra).
  symmetry. exact E.
Qed.
Lemma std_max_R {M} (a b : RS M) : std_max a b = Rmax a b.
Proof. unfold std_max, Rmax. cbn. unfold Rltb. destruct (Rlt_dec a b), (Rle_dec a b); try reflexivity; [exfalso|]; lra. Qed.
Lemma std_min_R {M} (a b : RS M) : std_min a b = Rmin a b.
Proof. unfold std_min, Rmin. cbn. unfold Rltb. destruct (Rlt_dec b a), (Rle_dec a b); try reflexivity; [exfalso|]; lra. Qed.
(** the result of comparing two segments, from their values at the common x *)
Lemma comp_val segs i j a b c d a' b' c' d' x y y' :
  nth_error segs i = Some (seg2 a b c d) -> nth_error segs j = Some (seg2 a' b' c' d') ->
  Rmax (Rmin a c) (Rmin a' c') = x -> a <> c -> a' <> c' ->
  y * (c - a) = b * (c - a) + (d - b) * (x - a) -> y' * (c' - a') = b' * (c' - a') + (d' - b') * (x - a') ->
  comp segs i j = Rltb y y' /\ comp segs j i = Rltb y' y.
Proof.
  intros Ei Ej Hx Hac Hac' Hy Hy'. unfold comp. rewrite Ei, Ej. unfold below. rewrite !std_min_R, !std_max_R.
  change (fst (g_source (seg2 a b c d))) with a. change (fst (g_target (seg2 a b c d))) with c.
  change (fst (g_source (seg2 a' b' c' d'))) with a'. change (fst (g_target (seg2 a' b' c' d'))) with c'.
  rewrite (Rmax_comm (Rmin a' c')), Hx. rewrite (compute_y_val a b c d x y Hac Hy), (compute_y_val a' b' c' d' x y' Hac' Hy'). split; reflexivity.
Qed.
Lemma comp_lt segs i j a b c d a' b' c' d' x y y' :
  nth_error segs i = Some (seg2 a b c d) -> nth_error segs j = Some (seg2 a' b' c' d') ->
  Rmax (Rmin a c) (Rmin a' c') = x -> a <> c -> a' <> c' ->
  y * (c - a) = b * (c - a) + (d - b) * (x - a) -> y' * (c' - a') = b' * (c' - a') + (d' - b') * (x - a') -> y < y' ->
  comp segs i j = true /\ comp segs j i = false.
Proof.
  intros Ei Ej Hx Hac Hac' Hy Hy' Hlt. destruct (comp_val segs i j a b c d a' b' c' d' x y y' Ei Ej Hx Hac Hac' Hy Hy') as (-> & ->).
  unfold Rltb. destruct (Rlt_dec y y'), (Rlt_dec y' y); split; try reflexivity; exfalso; lra.
Qed.

Section Steps.
  Context {M : R} (L : Linal (RS M)) (HL : LinalR L) (Hv : forall n (v : vec R n), veq L v v = true).
  Context (dbg : bool) (os : ordered_set) (Hos : std_set os) (segs : list (segment (RS M) 2)).
  Let chain := StronglySorted (fun u v => comp segs u v = true /\ comp segs v u = false).

  Lemma chain_sw l : chain l -> strict_weak (comp segs) l.
  Proof. intros H. apply sw_chain; [exact H|]. intros u _. apply comp_self. Qed.
  Lemma chain_sorted l : chain l -> StronglySorted (fun u v => comp segs u v = true) l.
  Proof. induction 1; constructor; [assumption|]. eapply Forall_impl; [|eassumption]. intros ? (H' & _). exact H'. Qed.
  Lemma chain_drop l1 x l2 : chain (l1 ++ x :: l2) -> chain (l1 ++ l2).
  Proof.
    induction l1 as [|a l1 IH]; cbn; intros H; apply StronglySorted_inv in H as (H & F); [exact H|]. constructor; [apply IH, H|].
    apply Forall_forall. intros z Hz. eapply Forall_forall in F; [exact F|]. rewrite in_app_iff in *. cbn. intuition.
  Qed.
  Lemma chain_mid l1 x l2 : chain (l1 ++ x :: l2) ->
    (forall y, In y l1 -> comp segs y x = true) /\ (forall y, In y l2 -> comp segs x y = true).
  Proof.
    induction l1 as [|a l1 IH]; cbn; intros H; apply StronglySorted_inv in H as (H & F).
    - split; [intros y []|]. intros y Hy. eapply Forall_forall in F; [|exact Hy]. apply F.
    - destruct (IH H) as (I1 & I2). split; [|exact I2]. intros y [<-|Hy]; [|auto].
      eapply Forall_forall in F; [|apply in_or_app; right; left; reflexivity]. apply F.
  Qed.

  Lemma step_start p i l1 l2 out : chain (l1 ++ i :: l2) ->
    sweep_step L dbg os segs (l1 ++ l2, out) (mkEvent p i true) =
    (let* out1 := match hd_error l2 with Some above => check L dbg segs out i above | None => Ok out end in
     let* out2 := match hd_error (rev l1) with Some below => check L dbg segs out1 i below | None => Ok out1 end in
     Ok (l1 ++ i :: l2, out2)).
  Proof.
    intros Hc. cbn [sweep_step ev_start ev_id]. destruct (chain_mid _ _ _ Hc) as (C1 & C2).
    rewrite (insert_forced os Hos (comp segs) i l1 l2); try assumption.
    - rewrite nth_mid, nth_next, nth_prev. reflexivity.
    - apply (sw_incl (comp segs) (l1 ++ i :: l2)); [|apply chain_sw, Hc]. intros u. rewrite !in_app_iff. cbn. rewrite in_app_iff. intuition.
    - apply chain_sorted, (chain_drop l1 i), Hc.
  Qed.
  Lemma step_end p i l1 l2 out : chain (l1 ++ i :: l2) ->
    sweep_step L dbg os segs (l1 ++ i :: l2, out) (mkEvent p i false) =
    (let* out1 := match hd_error l2, hd_error (rev l1) with Some above, Some below => check L dbg segs out above below | _, _ => Ok out end in
     Ok (l1 ++ l2, out1)).
  Proof.
    intros Hc. cbn [sweep_step ev_start ev_id].
    rewrite (find_forced os Hos (comp segs) i l1 l2 (chain_sw _ Hc) (chain_sorted _ Hc)).
    rewrite nth_next, nth_prev, erase_at_app. reflexivity.
  Qed.
  (** an end event of a segment that is not in the status *)
  Lemma step_end_absent p i l1 l2 out : chain (l1 ++ i :: l2) ->
    sweep_step L dbg os segs (l1 ++ l2, out) (mkEvent p i false) = Ok (l1 ++ l2, out).
  Proof.
    intros Hc. cbn [sweep_step ev_start ev_id].
    assert (Hsw : strict_weak (comp segs) (i :: l1 ++ l2)).
    { apply (sw_incl (comp segs) (l1 ++ i :: l2)); [|apply chain_sw, Hc]. intros u. rewrite !in_app_iff. cbn. rewrite in_app_iff. intuition. }
    pose proof (ss_find os Hos (comp segs) (l1 ++ l2) i Hsw (chain_sorted _ (chain_drop l1 i _ Hc))) as H.
    destruct (os_find os (comp segs) (l1 ++ l2) i) as [p'|]; [exfalso|reflexivity].
    destruct H as (y & Hy & N1 & N2). destruct (chain_mid _ _ _ Hc) as (C1 & C2).
    apply nth_error_In, in_app_or in Hy as [Hy|Hy]; [apply C1 in Hy|apply C2 in Hy]; congruence.
  Qed.

  Lemma check_hit out i j s s' (q : vec R 2) : nth_error segs i = Some s -> nth_error segs j = Some s' ->
    leps L < Rabs (crossing s s') -> on_segment (g_source s) (g_target s) q -> on_segment (g_source s') (g_target s') q ->
    check L dbg segs out i j = Ok (out ++ [q]).
  Proof.
    intros Es Es' Ha H H'. unfold check, at_. rewrite Es, Es'. cbn [bind].
    rewrite (segment2_complete HL (leps L) (lr_eps L HL) dbg s s' q Hv Ha H H'). reflexivity.
  Qed.
  Lemma check_miss out i j s s' : nth_error segs i = Some s -> nth_error segs j = Some s' ->
    (forall t r : R, - leps L <= t <= 1 + leps L -> - leps L <= r <= 1 + leps L ->
      along (g_source s : vec R 2) (rsub (g_target s) (g_source s)) t = along (g_source s') (rsub (g_target s') (g_source s')) r -> False) ->
    check L dbg segs out i j = Ok out.
  Proof.
    intros Es Es' H. unfold check, at_. rewrite Es, Es'. cbn [bind].
    destruct (segment2_total HL (leps L) (lr_eps L HL) dbg s s' Hv) as (o & E). rewrite E. destruct o as [q|]; [exfalso|reflexivity].
    apply (segment2_sound HL (leps L) (lr_eps L HL)) in E as (t & r & Ht & Hr & E1 & E2). apply (H t r Ht Hr). congruence.
  Qed.

  Lemma go_start p i l1 l2 out out1 out2 : chain (l1 ++ i :: l2) ->
    match hd_error l2 with Some above => check L dbg segs out i above | None => Ok out end = Ok out1 ->
    match hd_error (rev l1) with Some below => check L dbg segs out1 i below | None => Ok out1 end = Ok out2 ->
    sweep_step L dbg os segs (l1 ++ l2, out) (mkEvent p i true) = Ok (l1 ++ i :: l2, out2).
  Proof.
    intros Hc E1 E2. rewrite (step_start p i l1 l2 out Hc).
    eapply eq_trans; [apply (f_equal (fun r => bind r _) E1)|]. cbn [bind]. eapply eq_trans; [apply (f_equal (fun r => bind r _) E2)|]. reflexivity.
  Qed.
  Lemma go_end p i l1 l2 out out1 : chain (l1 ++ i :: l2) ->
    match hd_error l2, hd_error (rev l1) with Some above, Some below => check L dbg segs out above below | _, _ => Ok out end = Ok out1 ->
    sweep_step L dbg os segs (l1 ++ i :: l2, out) (mkEvent p i false) = Ok (l1 ++ l2, out1).
  Proof.
    intros Hc E1. rewrite (step_end p i l1 l2 out Hc). eapply eq_trans; [apply (f_equal (fun r => bind r _) E1)|]. reflexivity.
  Qed.
  Lemma go_run e evs st st' r : sweep_step L dbg os segs st e = Ok st' -> foldM (sweep_step L dbg os segs) evs st' = r ->
    foldM (sweep_step L dbg os segs) (e :: evs) st = r.
  Proof. intros E <-. cbn [foldM]. rewrite E. reflexivity. Qed.
  Lemma go_sweep evs st out : foldM (sweep_step L dbg os segs) evs ([], []) = Ok (st, out) -> sweep L dbg os segs evs = Ok out.
  Proof. intros E. unfold sweep. rewrite E. reflexivity. Qed.
End Steps.
