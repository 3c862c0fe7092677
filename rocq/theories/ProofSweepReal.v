(** * The sweep over exact reals: it finds an intersection if there is one *)

From Coq Require Import List Arith Bool Lia Permutation Sorted Reals Lra Psatz Classical.
From Verif Require Import Scalar Linal Result SpecReal VecR VecLemmas ModelShapes ModelIntersect ModelMesh ModelSweep SpecSweep ProofMesh ProofIntersect ProofSweep.
Import ListNotations.
Local Open Scope R_scope.

(** ** Geometry of segments *)
Section Geo.
  Context {M : R}.
  Implicit Types s : segment (RS M) 2.

  Definition lx s : R := fst (g_source s).
  Definition rx s : R := fst (g_target s).

  Lemma height_affine s : left_to_right s -> exists k c, forall x, height s x = c + k * x.
  Proof.
    unfold left_to_right, height. destruct s as [[ax [ay []]] [bx [by_ []]]]. cbn. intros H.
    exists ((by_ - ay) / (bx - ax)), (ay - (by_ - ay) / (bx - ax) * ax). intros x. field. cbn in *. lra.
  Qed.

  Lemma compute_y_R s x : left_to_right s -> compute_y s x = height s x.
  Proof.
    unfold left_to_right, compute_y, height. destruct s as [[ax [ay []]] [bx [by_ []]]]. cbn. intros H.
    unfold Reqb. destruct (Req_EM_T ax bx); [lra|]. field. lra.
  Qed.

  Lemma std_min_lr s : left_to_right s -> std_min (fst (g_source s)) (fst (g_target s)) = lx s.
  Proof. unfold left_to_right, lx, std_min. cbn. unfold Rltb. intros H. destruct (Rlt_dec _ _); [lra|reflexivity]. Qed.
  Lemma std_max_R (a b : RS M) : std_max a b = Rmax a b.
  Proof. unfold std_max, Rmax. cbn. unfold Rltb. destruct (Rlt_dec a b), (Rle_dec a b); try lra; reflexivity || (apply Rle_antisym; lra). Qed.

  Lemma below_R s s' : left_to_right s -> left_to_right s' ->
    below s s' = true <-> height s (Rmax (lx s) (lx s')) < height s' (Rmax (lx s) (lx s')).
  Proof.
    intros H H'. unfold below. cbv zeta. rewrite !std_min_lr, std_max_R, !compute_y_R by assumption. cbn. unfold Rltb.
    destruct (Rlt_dec _ _); split; intros; try assumption; try reflexivity; try discriminate. contradiction.
  Qed.

  (** both segments pass through the same point at [x] *)
  Definition touch s s' (x : R) : Prop := spans s x /\ spans s' x /\ height s x = height s' x.
  Lemma touch_sym s s' x : touch s s' x -> touch s' s x.
  Proof. unfold touch. intuition. Qed.

  Lemma on_segment_height s (q : vec R 2) : left_to_right s ->
    on_segment (g_source s) (g_target s) q <-> spans s (fst q) /\ fst (snd q) = height s (fst q).
  Proof.
    unfold left_to_right, on_segment, spans, height. destruct s as [[ax [ay []]] [bx [by_ []]]], q as [qx [qy []]]. cbn. intros H.
    split.
    - intros (t & Ht & E). injection E as -> ->. split; [nra|]. field. lra.
    - intros (Hs & ->). exists ((qx - ax) / (bx - ax)).
      split.
      + split; [apply Rmult_le_pos; [lra|]; left; apply Rinv_0_lt_compat; lra|].
        apply (Rmult_le_reg_r (bx - ax)); [lra|]. unfold Rdiv. rewrite Rmult_assoc, Rinv_l by lra. lra.
      + repeat (apply f_equal2; [field; lra|]). reflexivity.
  Qed.
  Lemma meet_touch s s' : left_to_right s -> left_to_right s' -> meet s s' <-> exists x, touch s s' x.
  Proof.
    intros H H'. unfold meet, touch. split.
    - intros (q & Hq & Hq'). apply on_segment_height in Hq, Hq'; try assumption. exists (fst q).
      destruct Hq as [? E1], Hq' as [? E2]. split; [assumption|]. split; [assumption|]. transitivity (fst (snd q)); [symmetry; exact E1|exact E2].
    - intros (x & Hs & Hs' & E). exists (x, (height s x, tt)). split; apply on_segment_height; cbn; auto.
  Qed.

  (** an affine function without a zero keeps its sign *)
  Lemma affine_sign c k u v : u <= v -> c + k * u < 0 -> 0 < c + k * v -> exists x, u < x < v /\ c + k * x = 0.
  Proof.
    intros Huv Hu Hv. set (du := c + k * u) in *. set (dv := c + k * v) in *.
    assert (Hk : 0 < dv - du) by lra. exists (u + (v - u) * (- du / (dv - du))).
    assert (Hr : 0 < - du / (dv - du) < 1).
    { split; [apply Rmult_lt_0_compat; [lra|apply Rinv_0_lt_compat; lra]|].
      apply (Rmult_lt_reg_r (dv - du)); [lra|]. unfold Rdiv. rewrite Rmult_assoc, Rinv_l by lra. lra. }
    assert (Hlt : u < v). { destruct (Req_dec u v) as [->|]; [unfold du, dv in *; lra|lra]. }
    split; [nra|]. unfold du, dv in *. field_simplify; [|lra]. field_simplify_eq; [|lra]. ring.
  Qed.

  Lemma height_diff s s' : left_to_right s -> left_to_right s' -> exists c k, forall x, height s x - height s' x = c + k * x.
  Proof.
    intros H H'. destruct (height_affine s H) as (k & c & E), (height_affine s' H') as (k' & c' & E').
    exists (c - c'), (k - k'). intros x. rewrite E, E'. ring.
  Qed.

  (** no common point to the left of [x] (or at [x]): the comparison gives the
      order at [x] *)
  Lemma below_weak s s' x : left_to_right s -> left_to_right s' -> spans s x -> spans s' x ->
    (forall x', touch s s' x' -> x <= x') -> below s s' = true -> height s x <= height s' x.
  Proof.
    intros H H' Hs Hs' Hno Hb. apply below_R in Hb; [|assumption|assumption].
    destruct (Rle_dec (height s x) (height s' x)) as [|Hgt]; [assumption|exfalso].
    destruct (height_diff s s' H H') as (c & k & E).
    set (m := Rmax (lx s) (lx s')) in *.
    assert (Hm : m <= x) by (unfold m, Rmax; destruct (Rle_dec _ _); [apply Hs'|apply Hs]).
    assert (Hm1 : lx s <= m) by apply Rmax_l. assert (Hm2 : lx s' <= m) by apply Rmax_r.
    destruct (affine_sign c k m x Hm) as (z & Hz & Ez).
    - rewrite <- E. lra.
    - rewrite <- E. lra.
    - assert (touch s s' z).
      { unfold touch, spans, lx in *. repeat split; try lra; try (destruct Hs, Hs'; lra). rewrite <- E in Ez. lra. }
      specialize (Hno z). destruct (Hno H0); lra.
  Qed.
  Lemma below_strict s s' x : left_to_right s -> left_to_right s' -> spans s x -> spans s' x ->
    (forall x', touch s s' x' -> x < x') -> below s s' = true <-> height s x < height s' x.
  Proof.
    intros H H' Hs Hs' Hno.
    assert (Hx : height s x <> height s' x).
    { intros E. specialize (Hno x (conj Hs (conj Hs' E))). lra. }
    split.
    - intros Hb. pose proof (below_weak s s' x H H' Hs Hs' (fun x' t => Rlt_le _ _ (Hno x' t)) Hb). lra.
    - intros Hlt. destruct (below s s') eqn:E; [reflexivity|exfalso].
      assert (E' : below s' s = true).
      { apply below_R; try assumption. set (m := Rmax (lx s') (lx s)).
        assert (Em : Rmax (lx s) (lx s') = m) by apply Rmax_comm.
        destruct (Rlt_le_dec (height s' m) (height s m)) as [|Hle]; [assumption|exfalso].
        assert (Hm : m <= x) by (unfold m, Rmax; destruct (Rle_dec _ _); [apply Hs|apply Hs']).
        destruct (Rle_lt_or_eq_dec _ _ Hle) as [Hl|He].
        - rewrite <- Em in Hl. apply below_R in Hl; [congruence|assumption|assumption].
        - assert (T : touch s s' m).
          { assert (lx s' <= m) by apply Rmax_l. assert (lx s <= m) by apply Rmax_r.
            unfold touch, spans, lx in *. repeat split; try lra; destruct Hs, Hs'; lra. }
          specialize (Hno m T). lra. }
      assert (Hno' : forall x', touch s' s x' -> x <= x') by (intros x' t; apply touch_sym, Hno in t; lra).
      pose proof (below_weak s' s x H' H Hs' Hs Hno' E'). lra.
  Qed.

  Lemma touch_unique s s' x x' : left_to_right s -> left_to_right s' -> crossing s s' <> 0 -> touch s s' x -> touch s s' x' -> x = x'.
  Proof.
    intros H H' Hc (_ & _ & E) (_ & _ & E'). apply NNPP. intros Hx. apply Hc. clear Hc.
    unfold height, crossing, det2, left_to_right in *. destruct s as [[ax [ay []]] [bx [by_ []]]], s' as [[cx [cy []]] [dx [dy []]]]. cbn in *.
    assert (K : (by_ - ay) * ((x - x') / (bx - ax)) = (dy - cy) * ((x - x') / (dx - cx))).
    { transitivity ((by_ - ay) * ((x - ax) / (bx - ax)) - (by_ - ay) * ((x' - ax) / (bx - ax))); [field; lra|].
      transitivity ((dy - cy) * ((x - cx) / (dx - cx)) - (dy - cy) * ((x' - cx) / (dx - cx))); [lra|field; lra]. }
    assert (K2 : (by_ - ay) * (dx - cx) * (x - x') = (dy - cy) * (bx - ax) * (x - x')).
    { apply (f_equal (fun z => z * ((bx - ax) * (dx - cx)))) in K. field_simplify in K; [|lra|lra]. lra. }
    apply Rmult_eq_reg_r in K2; [lra|lra].
  Qed.
End Geo.

(** ** Adjacent elements *)
Definition adj {A} (l : list A) (u v : A) : Prop := exists l1 l2, l = l1 ++ u :: v :: l2.
Lemma adj_l {A} (l1 l2 : list A) u v : adj l1 u v -> adj (l1 ++ l2) u v.
Proof. intros (k1 & k2 & ->). exists k1, (k2 ++ l2). rewrite <- app_assoc. reflexivity. Qed.
Lemma adj_r {A} (l1 l2 : list A) u v : adj l2 u v -> adj (l1 ++ l2) u v.
Proof. intros (k1 & k2 & ->). exists (l1 ++ k1), k2. rewrite <- app_assoc. reflexivity. Qed.
Lemma adj_cons {A} (l : list A) x u v : adj (x :: l) u v -> (x = u /\ hd_error l = Some v) \/ adj l u v.
Proof.
  intros ([|y k1] & k2 & E); cbn in E; injection E as -> ->; [left; auto|right]. exists k1, k2. reflexivity.
Qed.
Lemma adj_app {A} (l1 l2 : list A) u v : adj (l1 ++ l2) u v ->
  adj l1 u v \/ (hd_error (rev l1) = Some u /\ hd_error l2 = Some v) \/ adj l2 u v.
Proof.
  induction l1 as [|x l1 IH]; cbn [app]; [auto|]. intros H. apply adj_cons in H as [(-> & H)|H].
  - destruct l1 as [|y l1]; cbn in H |- *; [right; left; auto|left]. injection H as ->. exists [], l1. reflexivity.
  - destruct (IH H) as [K|[(K1 & K2)|K]]; [left; destruct K as (k1 & k2 & ->); exists (x :: k1), k2; reflexivity| |auto].
    right. left. split; [|exact K2]. cbn. destruct (rev l1) as [|z r]; [discriminate|]. cbn in *. exact K1.
Qed.

Lemma sw_rank {A} (comp : A -> A -> bool) (f : A -> R) l :
  (forall u v, In u l -> In v l -> comp u v = true <-> f u < f v) -> strict_weak comp l.
Proof.
  intros H.
  assert (N : forall u v, In u l -> In v l -> comp u v = false <-> ~ f u < f v).
  { intros u v Hu Hv. rewrite <- (H u v Hu Hv). destruct (comp u v); intuition congruence. }
  split.
  - intros x Hx. apply N; auto. lra.
  - intros x y z Hx Hy Hz. rewrite !H by assumption. lra.
  - intros x y z Hx Hy Hz. rewrite !N by assumption. lra.
Qed.

(** take the first call of a sequence apart *)
Tactic Notation "dbind" ident(o) ident(E) := match goal with |- (let* _ := ?m in _) = _ -> _ => destruct m as [o| | | |] eqn:E; try discriminate; cbn [bind] end.
Tactic Notation "dbind_in" hyp(H) ident(o) ident(E) := match type of H with (let* _ := ?m in _) = _ => destruct m as [o| | | |] eqn:E; try discriminate; cbn [bind] in H end.

(** ** Output only grows *)
Section Grow.
  Context {S : Scalar} (L : Linal S) (dbg : bool) (os : ordered_set) (segs : list (segment S 2)).

  Lemma check_grows out i j out' : check L dbg segs out i j = Ok out' -> exists more, out' = out ++ more.
  Proof.
    unfold check. destruct (at_ segs i) as [s| | | |]; try discriminate. destruct (at_ segs j) as [s'| | | |]; try discriminate. cbn [bind].
    destruct (intersect_segment2 _ _ _ _ _) as [[q|]| | | |]; try discriminate; cbn; intros E; apply Ok_inj in E; subst;
      [exists [q]|exists []; rewrite app_nil_r]; reflexivity.
  Qed.
  Lemma check_nil i j : check L dbg segs [] i j = Ok [] ->
    exists s s', nth_error segs i = Some s /\ nth_error segs j = Some s' /\ intersect_segment2 L dbg (leps L) s s' = Ok None.
  Proof.
    unfold check, at_. destruct (nth_error segs i) as [s|]; [|discriminate]. destruct (nth_error segs j) as [s'|]; [|discriminate]. cbn [bind].
    destruct (intersect_segment2 _ _ _ _ _) as [[q|]| | | |] eqn:E; try discriminate. intros _. exists s, s'. auto.
  Qed.
  Lemma step_grows st out e st' out' : sweep_step L dbg os segs (st, out) e = Ok (st', out') -> exists more, out' = out ++ more.
  Proof.
    unfold sweep_step. destruct (ev_start e).
    - destruct (os_insert os _ _ _) as [p l]. destruct (nth_error l p) as [it|].
      + dbind out1 E1.
        assert (G1 : exists more, out1 = out ++ more).
        { destruct (nth_error l (p + 1)); [apply check_grows in E1; exact E1|]. apply Ok_inj in E1. subst. exists []. rewrite app_nil_r. reflexivity. }
        dbind out2 E2.
        assert (G2 : exists more, out2 = out1 ++ more).
        { destruct (if (p =? 0)%nat then None else nth_error l (p - 1)); [apply check_grows in E2; exact E2|].
          apply Ok_inj in E2. subst. exists []. rewrite app_nil_r. reflexivity. }
        intros E. apply Ok_inj in E. injection E as <- <-. destruct G1 as (m1 & ->), G2 as (m2 & ->). exists (m1 ++ m2). rewrite app_assoc. reflexivity.
      + intros E. apply Ok_inj in E. injection E as <- <-. exists []. rewrite app_nil_r. reflexivity.
    - destruct (os_find os _ _ _) as [p|].
      + dbind out1 E1.
        intros E. apply Ok_inj in E. injection E as <- <-.
        destruct (nth_error st (p + 1)); [destruct (if (p =? 0)%nat then None else nth_error st (p - 1)); [apply check_grows in E1; exact E1|]|];
          apply Ok_inj in E1; subst; exists []; rewrite app_nil_r; reflexivity.
      + intros E. apply Ok_inj in E. injection E as <- <-. exists []. rewrite app_nil_r. reflexivity.
  Qed.
  Lemma run_grows evs : forall st out st' out', foldM (sweep_step L dbg os segs) evs (st, out) = Ok (st', out') -> exists more, out' = out ++ more.
  Proof.
    induction evs as [|e evs IH]; intros st out st' out' E; cbn [foldM] in E.
    - apply Ok_inj in E. injection E as <- <-. exists []. rewrite app_nil_r. reflexivity.
    - destruct (sweep_step L dbg os segs (st, out) e) as [[st1 out1]| | | |] eqn:E1; try discriminate. cbn [bind] in E.
      apply step_grows in E1 as (m1 & ->). apply IH in E as (m2 & ->). exists (m1 ++ m2). rewrite app_assoc. reflexivity.
  Qed.
End Grow.

(** ** Detection *)
Lemma Rltb_false_le (a b : R) : Rltb b a = false -> a <= b.
Proof. unfold Rltb. destruct (Rlt_dec b a); [discriminate|lra]. Qed.

Section Detect.
  Context {M : R} (L : Linal (RS M)) (HL : LinalR L) (Hv : forall n (v : vec R n), veq L v v = true).
  Context (dbg : bool) (os : ordered_set) (Hos : std_set os) (segs : list (segment (RS M) 2)) (Hgp : general_position (leps L) segs).
  Let cmp := comp segs.
  Let step := sweep_step L dbg os segs.
  Definition ex (e : event (RS M)) : R := fst (ev_point e).
  Definition hgt (u : nat) (x : R) : R := match nth_error segs u with Some s => height s x | None => 0 end.

  Context (X : R) (HX : forall i j s s' x, i <> j -> nth_error segs i = Some s -> nth_error segs j = Some s' -> touch s s' x -> X <= x).

  Lemma seg_right i s : nth_error segs i = Some s -> left_to_right s.
  Proof. intros H. apply (gp_right _ _ Hgp). eapply nth_error_In, H. Qed.

  Definition spanning (x : R) (u : nat) : Prop := exists s, nth_error segs u = Some s /\ spans s x.

  Lemma comp_self u : cmp u u = false.
  Proof.
    unfold cmp, comp. destruct (nth_error segs u) as [s|]; [|reflexivity]. unfold below. cbn. unfold Rltb.
    destruct (Rlt_dec _ _); [lra|reflexivity].
  Qed.
  Lemma comp_rank x u v : x < X -> spanning x u -> spanning x v -> cmp u v = true <-> hgt u x < hgt v x.
  Proof.
    intros Hx (s & Es & Hs) (s' & Es' & Hs'). destruct (Nat.eq_dec u v) as [->|Huv].
    - rewrite comp_self. split; [discriminate|lra].
    - unfold cmp, comp, hgt. rewrite Es, Es'. apply below_strict; try assumption; try (eapply seg_right; eassumption).
      intros x' Ht. specialize (HX u v s s' x' Huv Es Es' Ht). lra.
  Qed.
  Lemma rank_inj x u v : x < X -> spanning x u -> spanning x v -> hgt u x = hgt v x -> u = v.
  Proof.
    intros Hx (s & Es & Hs) (s' & Es' & Hs') E. destruct (Nat.eq_dec u v) as [->|Huv]; [reflexivity|exfalso].
    unfold hgt in E. rewrite Es, Es' in E. specialize (HX u v s s' x Huv Es Es' (conj Hs (conj Hs' E))). lra.
  Qed.

  Definition checked (u v : nat) : Prop := exists s s', nth_error segs u = Some s /\ nth_error segs v = Some s' /\
    (intersect_segment2 L dbg (leps L) s s' = Ok None \/ intersect_segment2 L dbg (leps L) s' s = Ok None).

  Definition started (pre : list (event (RS M))) i := exists s, nth_error segs i = Some s /\ In (mkEvent (g_source s) i true) pre.
  Definition ended (pre : list (event (RS M))) i := exists s, nth_error segs i = Some s /\ In (mkEvent (g_target s) i false) pre.

  Record inv (pre : list (event (RS M))) (status : list nat) : Prop := mkInv {
    in_active : forall i, In i status <-> started pre i /\ ~ ended pre i;
    in_sorted : StronglySorted (fun i j => cmp i j = true) status;
    in_checked : forall u v, adj status u v -> checked u v }.

  Context (evs : list (event (RS M))) (Hpop : pop_order segs evs).

  Lemma pop_In e : In e evs <-> exists i s, nth_error segs i = Some s /\
    (e = mkEvent (g_source s) i true \/ e = mkEvent (g_target s) i false).
  Proof.
    rewrite <- In_events. destruct Hpop as (Hp & _). split; apply Permutation_in; [apply Permutation_sym|]; exact Hp.
  Qed.
  Lemma pop_NoDup : NoDup evs.
  Proof. destruct Hpop as (Hp & _). apply (Permutation_NoDup Hp), events_NoDup. Qed.
  Lemma pop_sorted pre e post : evs = pre ++ e :: post ->
    (forall e', In e' pre -> ex e' <= ex e) /\ (forall e', In e' post -> ex e <= ex e').
  Proof using M segs evs Hpop.
    clear - Hpop.
    destruct Hpop as (_ & Hs). intros ->. clear Hpop. unfold ex. cbn in Hs.
    pose proof Rltb_false_le as K.
    induction pre as [|a pre IH]; cbn in Hs |- *; inversion Hs as [|? ? F Hs']; subst.
    - split; [tauto|]. intros e' He'. eapply Forall_forall in F; [|exact He']. apply K, F.
    - destruct (IH Hs') as (I1 & I2). split; [|exact I2]. intros e' [<-|He']; [|auto].
      eapply Forall_forall in F; [|apply in_or_app; right; left; reflexivity]. apply K, F.
  Qed.

  Lemma active_spans pre e post i : evs = pre ++ e :: post -> started pre i -> ~ ended pre i -> spanning (ex e) i.
  Proof.
    intros E (s & Es & Hin) Hne. destruct (pop_sorted pre e post E) as (P1 & P2). exists s. split; [exact Es|].
    assert (Hend : In (mkEvent (g_target s) i false) (pre ++ e :: post)).
    { rewrite <- E. apply pop_In. exists i, s. auto. }
    apply in_app_or in Hend as [Hend|Hend]; [exfalso; apply Hne; exists s; auto|].
    specialize (P1 _ Hin). split; [exact P1|]. destruct Hend as [->|Hend]; [apply Rle_refl|exact (P2 _ Hend)].
  Qed.

  Lemma rank_sw x l : x < X -> (forall u, In u l -> spanning x u) -> strict_weak cmp l.
  Proof. intros Hx H. apply (sw_rank cmp (fun u => hgt u x)). intros u v Hu Hv'. apply comp_rank; auto. Qed.

  Lemma inv_step pre e post status status' : evs = pre ++ e :: post -> ex e < X -> inv pre status ->
    step (status, []) e = Ok (status', []) -> inv (pre ++ [e]) status'.
  Proof.
    intros E Hx [I1 I2 I3] Hstep.
    assert (Hnd : NoDup (pre ++ e :: post)) by (rewrite <- E; apply pop_NoDup).
    assert (Hspan : forall u, In u status -> spanning (ex e) u).
    { intros u Hu. apply I1 in Hu as (H1 & H2). eapply active_spans; eassumption. }
    assert (He : In e evs) by (rewrite E; apply in_or_app; right; left; reflexivity).
    apply pop_In in He as (i & s & Es & He). unfold step, sweep_step in Hstep. destruct He as [He|He]; rewrite He in Hstep; cbn [ev_start ev_id] in Hstep.
    - (* start *)
      assert (Hi : spanning (ex e) i).
      { exists s. split; [exact Es|]. pose proof (seg_right i s Es) as Hr. unfold spans, ex. rewrite He. cbn [ev_point]. unfold left_to_right in Hr. lra. }
      assert (Hni : ~ In i status).
      { intros H. apply I1 in H as ((s' & Es' & Hin) & _). rewrite Es in Es'. injection Es' as <-. rewrite <- He in Hin.
        apply NoDup_remove_2 in Hnd. apply Hnd, in_or_app. auto. }
      assert (Hsw : strict_weak cmp (i :: status)).
      { apply (rank_sw (ex e)); [exact Hx|]. intros u [<-|Hu]; auto. }
      destruct (os_insert os (comp segs) status i) as [p l'] eqn:Ei.
      destruct (ss_insert os Hos _ _ _ _ _ Hsw I2 Ei) as [(-> & y & Hy & N1 & N2)|(l1 & l2 & -> & -> & -> & Hs')].
      { exfalso. apply nth_error_In in Hy. assert (Heq : i = y).
        - apply (rank_inj (ex e)); auto. apply Rle_antisym; apply Rnot_lt_le; intros Hlt;
            apply (comp_rank (ex e)) in Hlt; auto; congruence.
        - subst y. contradiction. }
      rewrite nth_mid, nth_next, nth_prev in Hstep.
      dbind_in Hstep out1 E1.
      dbind_in Hstep out2 E2.
      apply Ok_inj in Hstep. injection Hstep as <- ->.
      assert (Eo : out1 = []).
      { destruct (hd_error (rev l1)); [|apply Ok_inj in E2; exact E2]. apply check_grows in E2 as (m & E2). symmetry in E2. apply app_eq_nil in E2. apply E2. }
      subst out1. split.
      + intros u. assert (Hu : In u (l1 ++ i :: l2) <-> u = i \/ In u (l1 ++ l2)).
        { rewrite !in_app_iff. cbn. intuition. }
        rewrite Hu, I1. assert (A : ended (pre ++ [e]) u <-> ended pre u).
        { unfold ended. split; intros (s' & Es' & H); exists s'; split; try exact Es'.
          - apply in_app_or in H as [H|[H|[]]]; [exact H|]. rewrite He in H. discriminate.
          - apply in_or_app. auto. }
        rewrite A. split.
        * intros [->|(H1 & H2)].
          -- split; [exists s; split; [exact Es|]; apply in_or_app; right; left; exact He|].
             intros (s' & Es' & H). rewrite Es in Es'. injection Es' as <-.
             destruct (pop_sorted _ _ _ E) as (P1 & _). specialize (P1 _ H). pose proof (seg_right i s Es) as Hr.
             unfold ex in P1. rewrite He in P1. cbn [ev_point] in P1. unfold left_to_right in Hr. lra.
          -- split; [|exact H2]. destruct H1 as (s' & Es' & H). exists s'. split; [exact Es'|]. apply in_or_app. auto.
        * intros ((s' & Es' & H) & H2). apply in_app_or in H as [H|[H|[]]].
          -- right. split; [|exact H2]. exists s'. auto.
          -- left. rewrite He in H. injection H. auto.
      + exact Hs'.
      + intros u v Ha. apply adj_app in Ha as [Ha|[(Ha1 & Ha2)|Ha]].
        * apply I3, adj_l, Ha.
        * cbn in Ha2. injection Ha2 as <-. rewrite Ha1 in E2. apply check_nil in E2 as (s1 & s2 & H1 & H2 & H3). exists s2, s1. auto.
        * apply adj_cons in Ha as [(<- & Ha)|Ha]; [|apply I3, adj_r, Ha].
          rewrite Ha in E1. apply check_nil in E1 as (s1 & s2 & H1 & H2 & H3). exists s1, s2. auto.
    - (* end *)
      assert (Hin : In i status).
      { apply I1. split.
        - assert (Hst : In (mkEvent (g_source s) i true) (pre ++ e :: post)) by (rewrite <- E; apply pop_In; exists i, s; auto).
          exists s. split; [exact Es|]. apply in_app_or in Hst as [Hst|[Hst|Hst]]; [exact Hst|rewrite He in Hst; discriminate|].
          destruct (pop_sorted _ _ _ E) as (_ & P2). specialize (P2 _ Hst). pose proof (seg_right i s Es) as Hr.
          unfold ex in P2. rewrite He in P2. cbn [ev_point] in P2. unfold left_to_right in Hr. lra.
        - intros (s' & Es' & H). rewrite Es in Es'. injection Es' as <-. rewrite <- He in H.
          apply NoDup_remove_2 in Hnd. apply Hnd, in_or_app. auto. }
      assert (Hsw : strict_weak cmp status) by (apply (rank_sw (ex e)); assumption).
      assert (Hnds : NoDup status).
      { clear - I2. induction status as [|a l IH]; constructor; apply StronglySorted_inv in I2 as (I2 & F); [|auto].
        intros H. eapply Forall_forall in F; [|exact H]. rewrite comp_self in F. discriminate. }
      destruct (in_split i status Hin) as (l1 & l2 & ->).
      rewrite (find_forced os Hos (comp segs) i l1 l2 Hsw I2) in Hstep. rewrite nth_next, nth_prev, erase_at_app in Hstep.
      dbind_in Hstep out1 E1.
      apply Ok_inj in Hstep. injection Hstep as <- ->. split.
      + intros u. assert (Hu : In u (l1 ++ l2) <-> u <> i /\ In u (l1 ++ i :: l2)).
        { apply NoDup_remove_2 in Hnds. split.
          - intros H. split; [intros ->; contradiction|]. rewrite in_app_iff in *. cbn. intuition.
          - intros (H1 & H2). rewrite in_app_iff in *. cbn in H2. intuition. congruence. }
        rewrite Hu, I1. split.
        * intros (Hne & ((s' & Es' & H) & H2)). split; [exists s'; split; [exact Es'|apply in_or_app; auto]|].
          intros (s'' & Es'' & H3). apply in_app_or in H3 as [H3|[H3|[]]]; [apply H2; exists s''; auto|]. rewrite He in H3. injection H3 as _ ?. congruence.
        * intros ((s' & Es' & H) & H2). split.
          -- intros ->. apply H2. exists s. split; [exact Es|]. apply in_or_app. right. left. exact He.
          -- split.
             ++ exists s'. split; [exact Es'|]. apply in_app_or in H as [H|[H|[]]]; [exact H|]. rewrite He in H. discriminate.
             ++ intros (s'' & Es'' & H3). apply H2. exists s''. split; [exact Es''|]. apply in_or_app. auto.
      + clear - I2. induction l1 as [|a l1 IH]; cbn in *; apply StronglySorted_inv in I2 as (I2 & F); [exact I2|].
        constructor; [apply IH, I2|]. apply Forall_forall. intros z Hz. eapply Forall_forall in F; [exact F|].
        rewrite in_app_iff in *. cbn. intuition.
      + intros u v Ha. apply adj_app in Ha as [Ha|[(Ha1 & Ha2)|Ha]].
        * apply I3, adj_l, Ha.
        * rewrite Ha1, Ha2 in E1. apply check_nil in E1 as (s1 & s2 & H1 & H2 & H3). exists s2, s1. auto.
        * apply I3, adj_r. change (i :: l2) with ([i] ++ l2). apply adj_r, Ha.
  Qed.

  Lemma inv_run pre1 : forall pre0 post status st' , evs = pre0 ++ pre1 ++ post -> (forall e, In e pre1 -> ex e < X) -> inv pre0 status ->
    foldM step pre1 (status, []) = Ok (st', []) -> inv (pre0 ++ pre1) st'.
  Proof.
    induction pre1 as [|e pre1 IH]; intros pre0 post status st' E Hlt Hi H; cbn [foldM] in H.
    - apply Ok_inj in H. injection H as <-. rewrite app_nil_r. exact Hi.
    - destruct (step (status, []) e) as [[st1 out1]| | | |] eqn:E1; try discriminate. cbn [bind] in H.
      assert (out1 = []).
      { apply run_grows in H as (m & H). symmetry in H. apply app_eq_nil in H. apply H. }
      subst out1. replace (pre0 ++ e :: pre1) with ((pre0 ++ [e]) ++ pre1) by (rewrite <- app_assoc; reflexivity).
      apply (IH (pre0 ++ [e]) post st1 st').
      + rewrite E, <- app_assoc. reflexivity.
      + intros e' He'. apply Hlt. right. exact He'.
      + apply (inv_step pre0 e (pre1 ++ post) status st1); auto. apply Hlt. left. reflexivity.
      + exact H.
  Qed.

  (** the events before [X] *)
  Lemma pop_split : exists pre post, evs = pre ++ post /\ (forall e, In e pre -> ex e < X) /\ (forall e, In e post -> X <= ex e).
  Proof.
    assert (G : forall l, (exists k, evs = k ++ l) -> exists pre post, l = pre ++ post /\ (forall e, In e pre -> ex e < X) /\ (forall e, In e post -> X <= ex e)).
    { induction l as [|e l IH]; intros (k & Ek).
      - exists [], []. cbn. tauto.
      - destruct (Rlt_le_dec (ex e) X) as [Hlt|Hge].
        + destruct IH as (pre & post & -> & H1 & H2); [exists (k ++ [e]); rewrite <- app_assoc; exact Ek|].
          exists (e :: pre), post. split; [reflexivity|]. split; [|exact H2]. intros e' [<-|He']; auto.
        + exists [], (e :: l). split; [reflexivity|]. split; [intros ? []|]. intros e' [<-|He']; [exact Hge|].
          destruct (pop_sorted k e l Ek) as (_ & P2). specialize (P2 _ He'). lra. }
    apply G. exists []. reflexivity.
  Qed.

  (** a pair that touches at [X] is found *)
  Lemma found i0 j0 s0 s0' : i0 <> j0 -> nth_error segs i0 = Some s0 -> nth_error segs j0 = Some s0' -> touch s0 s0' X ->
    sweep L dbg os segs evs <> Ok [].
  Proof.
    intros Hij Ei Ej Ht Hsw. destruct pop_split as (pre & post & E & Hpre & Hpost).
    unfold sweep in Hsw. destruct (foldM (sweep_step L dbg os segs) evs ([], [])) as [[st out]| | | |] eqn:Er; try discriminate.
    cbn [bind] in Hsw. apply Ok_inj in Hsw. subst out. rewrite E, foldM_app in Er.
    destruct (foldM (sweep_step L dbg os segs) pre ([], [])) as [[st1 out1]| | | |] eqn:E1; try discriminate. cbn [bind] in Er.
    assert (out1 = []).
    { apply run_grows in Er as (m & H). symmetry in H. apply app_eq_nil in H. apply H. }
    subst out1.
    assert (I0 : inv [] []).
    { split.
      - intros i. split; [intros []|]. intros ((s & _ & []) & _).
      - constructor.
      - intros u v ([|? ?] & ? & H); discriminate. }
    pose proof (inv_run pre [] post [] st1 E Hpre I0 E1) as [I1 I2 I3]. cbn [app] in I1.
    (* every segment through the point is in the status *)
    assert (Hact : forall i j s s', i <> j -> nth_error segs i = Some s -> nth_error segs j = Some s' -> touch s s' X -> In i st1).
    { intros i j s s' Hne Es Es' (T1 & T2 & T3). apply I1. pose proof (seg_right i s Es) as Hr. pose proof (seg_right j s' Es') as Hr'. split.
      - exists s. split; [exact Es|].
        assert (Hin : In (mkEvent (g_source s) i true) evs) by (apply pop_In; exists i, s; auto).
        rewrite E in Hin. apply in_app_or in Hin as [Hin|Hin]; [exact Hin|exfalso]. specialize (Hpost _ Hin). unfold ex in Hpost. cbn in Hpost.
        assert (Hx : X = fst (g_source s)) by (apply Rle_antisym; [exact Hpost|apply T1]).
        apply (gp_start _ _ Hgp j i s' s); auto. apply on_segment_height; [exact Hr'|]. cbn in *. rewrite <- Hx. split; [exact T2|].
        rewrite <- T3, Hx. unfold height. unfold left_to_right in Hr. cbn in *. field. lra.
      - intros (s1 & Es1 & Hin). rewrite Es in Es1. injection Es1 as <-. specialize (Hpre _ Hin). unfold ex in Hpre. cbn in Hpre.
        destruct T1 as (_ & T1). exact (Rlt_irrefl _ (Rle_lt_trans _ _ _ T1 Hpre)). }
    assert (Hi : In i0 st1) by (apply (Hact i0 j0 s0 s0'); assumption).
    assert (Hj : In j0 st1) by (apply (Hact j0 i0 s0' s0); auto; apply touch_sym, Ht).
    (* no adjacent pair touches at X *)
    assert (Hadj : forall u v s s', adj st1 u v -> u <> v -> nth_error segs u = Some s -> nth_error segs v = Some s' -> touch s s' X -> False).
    { intros u v s s' Ha Hne Es Es' T. destruct (I3 u v Ha) as (s1 & s1' & F1 & F2 & F3).
      rewrite Es in F1. rewrite Es' in F2. injection F1 as <-. injection F2 as <-.
      pose proof (seg_right u s Es) as Hr. pose proof (seg_right v s' Es') as Hr'.
      assert (Hm : meet s s') by (apply meet_touch; eauto).
      pose proof (gp_angle _ _ Hgp u v s s' Hne Es Es' Hm) as Hang. destruct Hm as (q & Q1 & Q2).
      pose proof (lr_eps L HL) as Heps. destruct F3 as [F3|F3].
      - rewrite (segment2_complete HL (leps L) Heps dbg s s' q Hv Hang Q1 Q2) in F3. discriminate.
      - rewrite (segment2_complete HL (leps L) Heps dbg s' s q Hv) in F3; [discriminate| |exact Q2|exact Q1].
        unfold crossing in Hang. rewrite <- Rabs_Ropp. eapply Rlt_le_trans; [exact Hang|]. right. f_equal. unfold det2. cbn. ring. }
    (* walk from the lower to the upper one *)
    assert (Hspan : forall u, In u st1 -> exists s, nth_error segs u = Some s /\ spans s X).
    { intros u Hu. apply I1 in Hu as ((s & Es & Hin) & Hne). exists s. split; [exact Es|]. split.
      - specialize (Hpre _ Hin). unfold ex in Hpre. cbn in Hpre. cbn. lra.
      - assert (Hen : In (mkEvent (g_target s) u false) evs) by (apply pop_In; exists u, s; auto).
        rewrite E in Hen. apply in_app_or in Hen as [Hen|Hen]; [exfalso; apply Hne; exists s; auto|]. exact (Hpost _ Hen). }
    assert (Hle : forall u v, In u st1 -> In v st1 -> cmp u v = true -> hgt u X <= hgt v X).
    { intros u v Hu Hv' Hc. destruct (Hspan u Hu) as (s & Es & Hs), (Hspan v Hv') as (s' & Es' & Hs').
      unfold hgt. rewrite Es, Es'. unfold cmp, comp in Hc. rewrite Es, Es' in Hc.
      apply below_weak; try assumption; try (eapply seg_right; eassumption).
      intros x' T. apply (HX u v s s'); try assumption. intros <-. rewrite Es in Es'. injection Es' as <-.
      pose proof (comp_self u) as Hself. unfold cmp, comp in Hself. rewrite Es in Hself. congruence. }
    assert (Heq : hgt i0 X = hgt j0 X) by (unfold hgt; rewrite Ei, Ej; apply Ht).
    assert (G : forall i j, In i st1 -> In j st1 -> i <> j -> hgt i X = hgt j X -> (exists l1 l2 l3, st1 = l1 ++ i :: l2 ++ j :: l3) -> False).
    { intros i j Hi' Hj' Hne He (l1 & l2 & l3 & El).
      assert (Hk : exists k, adj st1 i k /\ i <> k /\ hgt k X = hgt i X).
      { assert (Sorted : forall a k1 b k2, st1 = k1 ++ a :: k2 -> In b k2 -> cmp a b = true).
        { intros a k1 b k2 Ek Hb. clear - I2 Ek Hb. subst st1. induction k1 as [|c k1 IH]; cbn in I2; apply StronglySorted_inv in I2 as (I2 & F);
            [eapply Forall_forall in F; eauto|auto]. }
        assert (Hcik : forall k, In k (l2 ++ j :: l3) -> cmp i k = true) by (intros k Hk; eapply Sorted; eauto).
        destruct l2 as [|k l2].
        - exists j. split; [exists l1, l3; exact El|]. auto.
        - exists k. split; [exists l1, (l2 ++ j :: l3); exact El|].
          assert (Hc : cmp i k = true) by (apply Hcik; left; reflexivity).
          assert (Hc' : cmp k j = true).
          { apply (Sorted k (l1 ++ [i]) j (l2 ++ j :: l3)); [rewrite El, <- app_assoc; reflexivity|apply in_or_app; right; left; reflexivity]. }
          assert (Hk : In k st1) by (rewrite El; apply in_or_app; right; right; left; reflexivity).
          split; [intros <-; rewrite comp_self in Hc; discriminate|].
          pose proof (Hle i k Hi' Hk Hc). pose proof (Hle k j Hk Hj' Hc'). lra. }
      destruct Hk as (k & Ha & Hne' & Hh).
      assert (Hk : In k st1) by (destruct Ha as (? & ? & ->); apply in_or_app; right; right; left; reflexivity).
      destruct (Hspan i Hi') as (s & Es & Hs), (Hspan k Hk) as (s' & Es' & Hs').
      apply (Hadj i k s s' Ha Hne' Es Es'). unfold hgt in Hh. rewrite Es, Es' in Hh. repeat split; try apply Hs; try apply Hs'. auto. }
    destruct (in_split i0 st1 Hi) as (l1 & l2 & El). rewrite El in Hj. apply in_app_or in Hj as [Hj'|[Hj'|Hj']].
    - apply (G j0 i0); auto; [rewrite El; apply in_or_app; auto|].
      apply in_split in Hj' as (k1 & k2 & ->). exists k1, k2, l2. rewrite El, <- app_assoc. reflexivity.
    - congruence.
    - apply (G i0 j0); auto; [rewrite El; apply in_or_app; right; right; exact Hj'|].
      apply in_split in Hj' as (k1 & k2 & ->). exists l1, k1, k2. exact El.
  Qed.
End Detect.

(** the leftmost common point *)
Lemma leftmost {M} (ps : list (segment (RS M) 2 * segment (RS M) 2)) :
  (forall p x x', In p ps -> touch (fst p) (snd p) x -> touch (fst p) (snd p) x' -> x = x') ->
  (forall p x, In p ps -> ~ touch (fst p) (snd p) x) \/
  (exists p X, In p ps /\ touch (fst p) (snd p) X /\ forall p' x', In p' ps -> touch (fst p') (snd p') x' -> X <= x').
Proof.
  induction ps as [|p ps IH]; intros Hu; [left; intros ? ? []|].
  destruct IH as [IH|(p0 & X & Hp0 & HT & Hmin)]; [intros; eapply Hu; eauto; right; assumption| |];
    destruct (classic (exists x, touch (fst p) (snd p) x)) as [(x & Hx)|Hno].
  - right. exists p, x. split; [left; reflexivity|]. split; [exact Hx|]. intros p' x' [<-|Hp'] T.
    + right. apply (Hu p); [left; reflexivity|exact Hx|exact T].
    + exfalso. apply (IH p' x' Hp' T).
  - left. intros p' x' [<-|Hp'] T; [apply Hno; eauto|apply (IH p' x' Hp' T)].
  - right. destruct (Rle_dec x X) as [Hle|Hgt].
    + exists p, x. split; [left; reflexivity|]. split; [exact Hx|]. intros p' x' [<-|Hp'] T.
      * right. apply (Hu p); [left; reflexivity|exact Hx|exact T].
      * specialize (Hmin p' x' Hp' T). lra.
    + exists p0, X. split; [right; exact Hp0|]. split; [exact HT|]. intros p' x' [<-|Hp'] T.
      * assert (x = x') by (apply (Hu p); [left; reflexivity|exact Hx|exact T]). lra.
      * apply (Hmin p' x' Hp' T).
  - right. exists p0, X. split; [right; exact Hp0|]. split; [exact HT|]. intros p' x' [<-|Hp'] T; [exfalso; eauto|apply (Hmin p' x' Hp' T)].
Qed.

Lemma sweep_detects {M} (L : Linal (RS M)) dbg os segs evs : LinalR L -> (forall n (v : vec R n), veq L v v = true) ->
  std_set os -> general_position (leps L) segs -> pop_order segs evs ->
  (exists i j s s', i <> j /\ nth_error segs i = Some s /\ nth_error segs j = Some s' /\ meet s s') ->
  sweep L dbg os segs evs <> Ok [].
Proof.
  intros HL Hv Hos Hgp Hpop (i & j & s & s' & Hij & Es & Es' & Hm).
  (* all pairs of different positions *)
  set (ps := flat_map (fun '(i, s) => flat_map (fun '(j, s') => if Nat.eq_dec i j then [] else [(s, s')]) (combine (seq 0 (length segs)) segs))
                      (combine (seq 0 (length segs)) segs)).
  assert (Hc : forall i s, In (i, s) (combine (seq 0 (length segs)) segs) <-> nth_error segs i = Some s).
  { assert (G : forall (l : list (segment (RS M) 2)) k i s, In (i, s) (combine (seq k (length l)) l) <-> (k <= i)%nat /\ nth_error l (i - k) = Some s).
    { clear. induction l as [|a l IH]; intros k i s; cbn [length seq combine In].
      - split; [tauto|]. intros (_ & H). destruct (i - k)%nat; discriminate.
      - rewrite IH. split.
        + intros [H|(H1 & H2)]; [injection H as -> ->; rewrite Nat.sub_diag; auto|]. split; [lia|].
          replace (i - k)%nat with (S (i - S k)) by lia. exact H2.
        + intros (H1 & H2). destruct (Nat.eq_dec k i) as [->|Hne].
          * rewrite Nat.sub_diag in H2. cbn in H2. injection H2 as ->. auto.
          * right. split; [lia|]. replace (i - k)%nat with (S (i - S k)) in H2 by lia. exact H2. }
    intros i' s1. rewrite (G segs 0%nat). rewrite Nat.sub_0_r. split; [tauto|]. intros H. split; [lia|exact H]. }
  assert (Hps : forall p, In p ps <-> exists i j, i <> j /\ nth_error segs i = Some (fst p) /\ nth_error segs j = Some (snd p)).
  { intros [a b]. unfold ps. rewrite in_flat_map. split.
    - intros ((i' & s1) & H1 & H2). apply in_flat_map in H2 as ((j' & s2) & H2 & H3). destruct (Nat.eq_dec i' j'); [destruct H3|].
      destruct H3 as [H3|[]]. injection H3 as -> ->. exists i', j'. cbn. rewrite <- !Hc. auto.
    - intros (i' & j' & Hne & H1 & H2). cbn in H1, H2. exists (i', a). split; [apply Hc, H1|]. apply in_flat_map. exists (j', b). split; [apply Hc, H2|].
      destruct (Nat.eq_dec i' j'); [contradiction|]. left. reflexivity. }
  assert (Hlr : forall i s, nth_error segs i = Some s -> left_to_right s) by (intros; eapply (gp_right _ _ Hgp), nth_error_In; eassumption).
  destruct (leftmost ps) as [Hno|((a & b) & X & Hp & HT & Hmin)].
  - intros p x x' Hp T T'. apply Hps in Hp as (i' & j' & Hne & H1 & H2). apply (touch_unique (fst p) (snd p)); eauto.
    assert (Hmm : meet (fst p) (snd p)) by (apply meet_touch; eauto).
    pose proof (gp_angle _ _ Hgp i' j' _ _ Hne H1 H2 Hmm) as Ha. pose proof (lr_eps L HL). intros E. rewrite E, Rabs_R0 in Ha. lra.
  - apply meet_touch in Hm as (x & T); eauto. exfalso. apply (Hno (s, s') x); [apply Hps; exists i, j; auto|exact T].
  - apply Hps in Hp as (i0 & j0 & Hne & H1 & H2). cbn in H1, H2, HT.
    apply (found L HL Hv dbg os Hos segs Hgp X) with (i0 := i0) (j0 := j0) (s0 := a) (s0' := b); try assumption.
    intros i' j' s1 s1' x Hne' F1 F2 T. apply (Hmin (s1, s1') x); [apply Hps; exists i', j'; auto|exact T].
Qed.
