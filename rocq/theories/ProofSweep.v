(** * The sweep: soundness for every scalar *)

From Coq Require Import List Arith Bool Lia Permutation Sorted.
From Verif Require Import Scalar Linal Result ModelShapes ModelIntersect ModelMesh ModelSweep SpecSweep SpecTess ProofMesh.
Import ListNotations.

(** ** Lists *)
Lemma erase_at_app {A} (l1 l2 : list A) x : erase_at (length l1) (l1 ++ x :: l2) = l1 ++ l2.
Proof.
  unfold erase_at. rewrite firstn_app, Nat.sub_diag, firstn_all, firstn_O, app_nil_r. f_equal.
  rewrite skipn_app, skipn_all2 by lia. replace (S (length l1) - length l1) with 1 by lia. reflexivity.
Qed.
Lemma nth_split_at {A} (l : list A) p x : nth_error l p = Some x -> exists l1 l2, l = l1 ++ x :: l2 /\ p = length l1.
Proof.
  intros H. apply nth_error_split in H as (l1 & l2 & -> & <-). eauto.
Qed.
Lemma erase_at_split {A} (l : list A) p : p < length l -> exists l1 x l2, l = l1 ++ x :: l2 /\ p = length l1 /\ erase_at p l = l1 ++ l2.
Proof.
  intros H. destruct (nth_error l p) as [x|] eqn:E; [|apply nth_error_None in E; lia].
  apply nth_split_at in E as (l1 & l2 & -> & ->). exists l1, x, l2. rewrite erase_at_app. auto.
Qed.
Lemma nth_mid {A} (l1 l2 : list A) x : nth_error (l1 ++ x :: l2) (length l1) = Some x.
Proof. rewrite nth_error_app2, Nat.sub_diag by lia. reflexivity. Qed.
Lemma nth_next {A} (l1 l2 : list A) x : nth_error (l1 ++ x :: l2) (length l1 + 1) = hd_error l2.
Proof. rewrite nth_error_app2 by lia. replace (length l1 + 1 - length l1) with 1 by lia. destruct l2; reflexivity. Qed.
Lemma nth_prev {A} (l1 l2 : list A) x :
  (if length l1 =? 0 then None else nth_error (l1 ++ x :: l2) (length l1 - 1)) = hd_error (rev l1).
Proof.
  destruct l1 as [|a l1 _] using rev_ind; [reflexivity|]. rewrite app_length, rev_app_distr. cbn [length app rev hd_error].
  replace (length l1 + 1 =? 0) with false by (symmetry; apply Nat.eqb_neq; lia).
  replace (length l1 + 1 - 1) with (length l1) by lia. rewrite <- app_assoc. apply nth_mid.
Qed.
Lemma hd_error_In {A} (l : list A) x : hd_error l = Some x -> In x l.
Proof. destruct l; [discriminate|]. injection 1 as ->. left. reflexivity. Qed.

(** ** The set *)
Lemma sw_incl {A} (comp : A -> A -> bool) l l' : incl l' l -> strict_weak comp l -> strict_weak comp l'.
Proof.
  intros H [S1 S2 S3]. split.
  - intros x Hx. apply S1, H, Hx.
  - intros x y z Hx Hy Hz. apply S2; apply H; assumption.
  - intros x y z Hx Hy Hz. apply S3; apply H; assumption.
Qed.
Lemma list_set_like : set_like list_set.
Proof.
  split.
  - intros comp l x p l' H. cbn in H. destruct (nth_error l (lower_bound comp l x)) as [y|] eqn:E.
    + destruct (comp x y); injection H as <- <-.
      * right. exists (firstn (lower_bound comp l x) l), (skipn (lower_bound comp l x) l).
        rewrite firstn_skipn. repeat split. rewrite firstn_length_le; [reflexivity|].
        apply Nat.lt_le_incl, nth_error_Some. congruence.
      * left. split; [reflexivity|]. apply nth_error_Some. congruence.
    + injection H as <- <-. right. exists l, []. rewrite app_nil_r. repeat split.
      apply nth_error_None in E. assert (lower_bound comp l x <= length l); [|lia].
      clear. induction l as [|y l IH]; cbn; [lia|]. destruct (comp y x); lia.
  - intros comp l x p H. cbn in H. destruct (nth_error l (lower_bound comp l x)) as [y|] eqn:E; [|discriminate].
    destruct (comp x y); [discriminate|]. injection H as <-. apply nth_error_Some. congruence.
Qed.

Section Forced.
  Context (os : ordered_set) (Hos : std_set os) (comp : nat -> nat -> bool).

  (** if all elements are comparable, there is no choice *)
  Lemma insert_forced x l1 l2 : strict_weak comp (x :: l1 ++ l2) -> StronglySorted (fun i j => comp i j = true) (l1 ++ l2) ->
    (forall y, In y l1 -> comp y x = true) -> (forall y, In y l2 -> comp x y = true) ->
    os_insert os comp (l1 ++ l2) x = (length l1, l1 ++ x :: l2).
  Proof.
    intros Hsw Hs H1 H2. destruct (os_insert os comp (l1 ++ l2) x) as [p l'] eqn:E.
    destruct (ss_insert os Hos comp _ x p l' Hsw Hs E) as [(-> & y & Hy & N1 & N2)|(k1 & k2 & El & -> & -> & Hs')].
    - apply nth_error_In, in_app_or in Hy as [Hy|Hy]; [rewrite H1 in N2|rewrite H2 in N1]; congruence || assumption.
    - assert (K : l1 = k1 /\ l2 = k2) by (
        assert (A : forall y, In y l1 -> comp x y = false);
        [intros y Hy; destruct (comp x y) eqn:Exy; [|reflexivity];
         rewrite <- (sw_irrefl comp _ Hsw x (or_introl eq_refl));
         symmetry; apply (sw_trans comp _ Hsw x y x); auto; [left; reflexivity|right; apply in_or_app; auto|left; reflexivity]|];
        assert (B : forall y, In y l2 -> comp y x = false);
        [intros y Hy; destruct (comp y x) eqn:Exy; [|reflexivity];
         rewrite <- (sw_irrefl comp _ Hsw x (or_introl eq_refl));
         symmetry; apply (sw_trans comp _ Hsw x y x); auto; [left; reflexivity|right; apply in_or_app; auto|left; reflexivity]|];
        assert (C : (forall y, In y k1 -> comp y x = true) /\ (forall y, In y k2 -> comp x y = true));
        [clear - Hs'; induction k1 as [|y k1 IH]; cbn in Hs'; apply StronglySorted_inv in Hs' as (Hs' & F);
         [split; [intros y []|intros y Hy; eapply Forall_forall in F; eauto]|];
         destruct (IH Hs') as (I1 & I2); split; [|exact I2]; intros z [<-|Hz]; [|auto];
         eapply Forall_forall in F; [exact F|apply in_or_app; right; left; reflexivity]|];
        destruct C as (C1 & C2); clear - El A B H1 H2 C1 C2; revert k1 El C1; induction l1 as [|a l1 IH]; intros [|b k1] El C1; cbn in El;
        [auto
        |exfalso; subst l2; specialize (B b (or_introl eq_refl)); rewrite (C1 b (or_introl eq_refl)) in B; discriminate
        |exfalso; subst k2; specialize (A a (or_introl eq_refl)); rewrite (C2 a (or_introl eq_refl)) in A; discriminate
        |injection El as -> El; destruct (IH (fun y h => H1 y (or_intror h)) (fun y h => A y (or_intror h)) k1 El (fun y h => C1 y (or_intror h))) as (-> & ->); auto]).
      destruct K as (-> & ->). reflexivity.
  Qed.

  Lemma find_forced x l1 l2 : strict_weak comp (l1 ++ x :: l2) -> StronglySorted (fun i j => comp i j = true) (l1 ++ x :: l2) ->
    os_find os comp (l1 ++ x :: l2) x = Some (length l1).
  Proof.
    intros Hsw Hs.
    assert (Hin : forall y, In y (x :: l1 ++ x :: l2) -> In y (l1 ++ x :: l2)).
    { intros y [<-|H]; [apply in_or_app; right; left; reflexivity|exact H]. }
    assert (Hsw' : strict_weak comp (x :: l1 ++ x :: l2)).
    { apply (sw_incl comp _ _ Hin Hsw). }
    pose proof (ss_find os Hos comp _ x Hsw' Hs) as H. destruct (os_find os comp (l1 ++ x :: l2) x) as [p|].
    - destruct H as (y & Hy & N1 & N2). f_equal. apply nth_split_at in Hy as (k1 & k2 & E & ->).
      clear Hsw Hsw' Hin. revert k1 E. induction l1 as [|a l1 IH]; intros [|b k1] E; cbn in *.
      + reflexivity.
      + exfalso. injection E as <- E. apply StronglySorted_inv in Hs as (_ & F). eapply Forall_forall in F; [rewrite F in N1; discriminate|].
        rewrite E. apply in_or_app. right. left. reflexivity.
      + exfalso. injection E as <- <-. apply StronglySorted_inv in Hs as (_ & F). eapply Forall_forall in F; [rewrite F in N2; discriminate|].
        apply in_or_app. right. left. reflexivity.
      + injection E as -> E. f_equal. apply StronglySorted_inv in Hs as (Hs & _). apply IH; assumption.
    - exfalso. pose proof (sw_irrefl comp _ Hsw' x (or_introl eq_refl)). destruct (H x); [apply in_or_app; right; left; reflexivity| |]; congruence.
  Qed.
End Forced.

Lemma list_set_std : std_set list_set.
Proof.
  assert (LB : forall (comp : nat -> nat -> bool) l x, strict_weak comp (x :: l) -> StronglySorted (fun i j => comp i j = true) l ->
    let p := lower_bound comp l x in
    Forall (fun y => comp y x = true) (firstn p l) /\ Forall (fun y => comp y x = false) (skipn p l) /\ p <= length l).
  { intros comp l x Hsw Hs. cbv zeta. induction l as [|y l IH]; cbn [lower_bound]; [cbn; auto|].
    assert (Hsw' : strict_weak comp (x :: l)).
    { apply (sw_incl comp (x :: y :: l)); [|exact Hsw]. intros z [<-|Hz]; cbn; auto. }
    pose proof (StronglySorted_inv Hs) as (Hs' & F). destruct (IH Hsw' Hs') as (I1 & I2 & I3). destruct (comp y x) eqn:E; cbn.
    - split; [constructor; assumption|]. split; [exact I2|lia].
    - split; [constructor|]. split; [|lia]. constructor; [exact E|]. apply Forall_forall. intros z Hz.
      destruct (comp z x) eqn:Ez; [|reflexivity]. rewrite <- E. symmetry. apply (sw_trans comp _ Hsw y z x); cbn; auto.
      eapply Forall_forall in F; [exact F|exact Hz]. }
  split; [exact list_set_like| |].
  - intros comp l x p l' Hsw Hs H. destruct (LB comp l x Hsw Hs) as (F1 & F2 & Hp). cbn in H.
    destruct (nth_error l (lower_bound comp l x)) as [y|] eqn:E.
    + destruct (nth_split_at _ _ _ E) as (l1 & l2 & -> & Ep). rewrite Ep in *.
      rewrite firstn_app, Nat.sub_diag, firstn_all, firstn_O, app_nil_r in *.
      rewrite skipn_app, skipn_all, Nat.sub_diag in *. cbn [app skipn] in *.
      assert (Hy : comp y x = false) by (inversion F2; assumption).
      destruct (comp x y) eqn:Exy; injection H as <- <-.
      * right. exists l1, (y :: l2). repeat split. clear - Hs F1 Exy Hsw. induction l1 as [|a l1 IH]; cbn in *.
        -- constructor; [exact Hs|]. constructor; [exact Exy|]. apply Forall_forall. intros z Hz.
           apply (sw_trans comp _ Hsw x y z); cbn; auto. apply StronglySorted_inv in Hs as (_ & F). eapply Forall_forall in F; eauto.
        -- apply StronglySorted_inv in Hs as (Hs & F). apply Forall_inv in F1 as Ha. apply Forall_inv_tail in F1.
           constructor.
           ++ apply IH; try assumption. eapply sw_incl; [|exact Hsw]. intros z [<-|Hz]; cbn; auto.
           ++ apply Forall_forall. intros z Hz. apply in_app_or in Hz as [Hz|[<-|Hz]]; [|exact Ha|];
                (eapply Forall_forall in F; [exact F|apply in_or_app; auto]).
      * left. split; [reflexivity|]. exists y. rewrite nth_mid. auto.
    + injection H as <- <-. right. exists l, []. rewrite app_nil_r. apply nth_error_None in E.
      assert (Ep : lower_bound comp l x = length l) by lia. rewrite Ep in *. rewrite firstn_all in F1. repeat split.
      clear - Hs F1. induction l as [|a l IH]; cbn; [repeat constructor|].
      apply StronglySorted_inv in Hs as (Hs & F). apply Forall_inv in F1 as Ha. apply Forall_inv_tail in F1.
      constructor; [apply IH; assumption|]. apply Forall_app. auto.
  - intros comp l x Hsw Hs. destruct (LB comp l x Hsw Hs) as (F1 & F2 & Hp). cbn.
    destruct (nth_error l (lower_bound comp l x)) as [y|] eqn:E.
    + destruct (nth_split_at _ _ _ E) as (l1 & l2 & -> & Ep). rewrite Ep in *.
      rewrite firstn_app, Nat.sub_diag, firstn_all, firstn_O, app_nil_r in *.
      rewrite skipn_app, skipn_all, Nat.sub_diag in *. cbn [app skipn] in *.
      assert (Hy : comp y x = false) by (inversion F2; assumption).
      destruct (comp x y) eqn:Exy.
      * intros z Hz. apply in_app_or in Hz as [Hz|[<-|Hz]].
        -- right. eapply Forall_forall in F1; eauto.
        -- left. exact Exy.
        -- left. apply (sw_trans comp _ Hsw x y z); cbn; auto; [right; apply in_or_app; cbn; auto|right; apply in_or_app; cbn; auto|].
           clear - Hs Hz. induction l1 as [|a l1 IH]; cbn in Hs; apply StronglySorted_inv in Hs as (Hs & F); [|apply IH, Hs].
           eapply Forall_forall in F; eauto.
      * exists y. rewrite nth_mid. auto.
    + apply nth_error_None in E. assert (Ep : lower_bound comp l x = length l) by lia. rewrite Ep, firstn_all in F1.
      intros y Hy. right. eapply Forall_forall in F1; eauto.
Qed.

(** ** Events *)
Definition start_ids {S} (evs : list (event S)) : list nat := map ev_id (filter ev_start evs).

Section Events.
  Context {S : Scalar} (segs : list (segment S 2)).

  Definition events_from (k : nat) (l : list (segment S 2)) : list (event S) :=
    flat_map (fun '(i, s) => [mkEvent (g_source s) i true; mkEvent (g_target s) i false]) (combine (seq k (length l)) l).

  Lemma In_events_from e l k : In e (events_from k l) <-> exists i s, nth_error l i = Some s /\
    (e = mkEvent (g_source s) (k + i) true \/ e = mkEvent (g_target s) (k + i) false).
  Proof.
    unfold events_from. revert k. induction l as [|a l IH]; intros k; cbn [length seq combine flat_map app In].
    - split; [tauto|]. intros (i & s & H & _). destruct i; discriminate.
    - rewrite IH. split.
      + intros [<-|[<-|(i & s & H & He)]].
        * exists 0, a. rewrite Nat.add_0_r. auto.
        * exists 0, a. rewrite Nat.add_0_r. auto.
        * exists (Datatypes.S i), s. rewrite <- Nat.add_succ_comm. auto.
      + intros (i & s & H & He). destruct i as [|i]; cbn in H.
        * injection H as ->. rewrite Nat.add_0_r in He. intuition.
        * right. right. exists i, s. rewrite Nat.add_succ_comm. auto.
  Qed.
  Lemma In_events e : In e (events segs) <-> exists i s, nth_error segs i = Some s /\
    (e = mkEvent (g_source s) i true \/ e = mkEvent (g_target s) i false).
  Proof. apply (In_events_from e segs 0). Qed.

  Lemma start_ids_from l k : start_ids (events_from k l) = seq k (length l).
  Proof.
    unfold start_ids, events_from. revert k. induction l as [|a l IH]; intros k; cbn; [reflexivity|]. f_equal. apply IH.
  Qed.
  Lemma events_NoDup : NoDup (events segs).
  Proof.
    change (events segs) with (events_from 0 segs). generalize 0. induction segs as [|a l IH]; intros k; cbn; [constructor|].
    assert (N : forall e, In e (events_from (Datatypes.S k) l) -> ev_id e <> k).
    { intros e H. apply In_events_from in H as (i & s & _ & [-> | ->]); cbn; lia. }
    constructor; [|constructor].
    - intros [H|H]; [discriminate|]. apply (N _ H). reflexivity.
    - intros H. apply (N _ H). reflexivity.
    - apply IH.
  Qed.
  Lemma start_ids_perm evs : Permutation (events segs) evs -> NoDup (start_ids evs).
  Proof.
    intros H. apply (Permutation_NoDup (l := start_ids (events segs))).
    - unfold start_ids. apply Permutation_map. clear - H. induction H; cbn.
      + constructor.
      + destruct (ev_start x); [constructor|]; assumption.
      + destruct (ev_start x), (ev_start y); try apply Permutation_refl. apply perm_swap.
      + etransitivity; eassumption.
    - change (events segs) with (events_from 0 segs). rewrite start_ids_from. apply seq_NoDup.
  Qed.
End Events.

(** ** Soundness *)
Section Sound.
  Context {S : Scalar} (L : Linal S) (dbg : bool) (os : ordered_set) (Hos : set_like os) (segs : list (segment S 2)).
  Let n := length segs.

  (** the point is what the pairwise intersection returns for two different segments *)
  Definition justified (q : vec S 2) : Prop :=
    exists i j s s', i <> j /\ nth_error segs i = Some s /\ nth_error segs j = Some s' /\
      intersect_segment2 L dbg (leps L) s s' = Ok (Some q).

  Lemma intersect_outcome s s' :
    returns_or_asserts dbg (intersect_segment2 L dbg (leps L) s s').
  Proof.
    unfold intersect_segment2, returns_or_asserts. cbv zeta. destruct (isZero L _ _); [left; eauto|].
    destruct (_ || _); [left; eauto|]. unfold geo_assert. destruct dbg; [|left; cbn; eauto].
    destruct (veq L _ _); cbn; [left; eauto|right; auto].
  Qed.

  Lemma check_ok out i j : i < n -> j < n -> i <> j -> Forall justified out ->
    (exists out', check L dbg segs out i j = Ok out' /\ Forall justified out') \/ (dbg = true /\ check L dbg segs out i j = Trap).
  Proof.
    intros Hi Hj Hij Ho. unfold check, at_.
    destruct (nth_error segs i) as [s|] eqn:Es; [|apply nth_error_None in Es; unfold n in Hi; lia].
    destruct (nth_error segs j) as [s'|] eqn:Es'; [|apply nth_error_None in Es'; unfold n in Hj; lia]. cbn [bind].
    destruct (intersect_outcome s s') as [([q|] & E)|(-> & ->)].
    - left. rewrite E. cbn. eexists. split; [reflexivity|]. apply Forall_app. split; [exact Ho|]. constructor; [|constructor].
      exists i, j, s, s'. auto.
    - left. rewrite E. cbn. eauto.
    - right. auto.
  Qed.

  Lemma sound_run evs : forall status out,
    NoDup (start_ids evs) -> (forall i, In i status -> ~ In i (start_ids evs)) -> NoDup status ->
    (forall i, In i status -> i < n) -> (forall e, In e evs -> ev_id e < n) -> Forall justified out ->
    (exists st', foldM (sweep_step L dbg os segs) evs (status, out) = Ok st' /\ Forall justified (snd st')) \/
    (dbg = true /\ foldM (sweep_step L dbg os segs) evs (status, out) = Trap).
  Proof.
    induction evs as [|e evs IH]; intros status out Hnd Hdis Hst Hlt Hev Ho; [left; cbn; eauto|].
    cbn [foldM].
    (* it is enough to treat the first event *)
    enough (K : (exists status' out', sweep_step L dbg os segs (status, out) e = Ok (status', out') /\
      NoDup status' /\ (forall i, In i status' -> i < n) /\ (forall i, In i status' -> ~ In i (start_ids evs)) /\ Forall justified out') \/
      (dbg = true /\ sweep_step L dbg os segs (status, out) e = Trap)).
    { destruct K as [(status' & out' & -> & K1 & K2 & K3 & K4)|(-> & ->)]; [|right; auto]. cbn [bind].
      apply IH; try assumption.
      - unfold start_ids in *. cbn in Hnd. destruct (ev_start e); [inversion Hnd|]; assumption.
      - intros x Hx. apply Hev. right. exact Hx. }
    assert (He : ev_id e < n) by (apply Hev; left; reflexivity).
    unfold sweep_step. unfold start_ids in Hnd, Hdis. cbn [filter] in Hnd, Hdis. destruct (ev_start e); cbn [map] in Hnd, Hdis.
    - fold (start_ids evs) in *. destruct (os_insert os (comp segs) status (ev_id e)) as [p st'] eqn:E.
      assert (Hst' : NoDup st' /\ (forall i, In i st' -> i < n) /\ (forall i, In i st' -> ~ In i (start_ids evs))).
      { inversion Hnd as [|? ? Hn1 Hn2]; subst. destruct (sl_insert os Hos _ _ _ _ _ E) as [(-> & _)|(l1 & l2 & -> & -> & _)].
        - split; [exact Hst|]. split; [exact Hlt|]. intros i Hi H. apply (Hdis i Hi). right. exact H.
        - assert (Hx : ~ In (ev_id e) (l1 ++ l2)) by (intros H; apply (Hdis _ H); left; reflexivity).
          split; [apply NoDup_Add with (l := l1 ++ l2) (a := ev_id e); [apply Add_app|auto]|].
          split; intros i Hi; apply in_app_or in Hi as [Hi|[<-|Hi]]; try assumption; try (apply Hlt, in_or_app; auto);
            try (intros H; apply (Hdis i); [apply in_or_app; auto|right; exact H]). }
      destruct Hst' as (H1 & H2 & H3).
      destruct (nth_error st' p) as [it|] eqn:Eit; [|left; exists st', out; auto].
      assert (Hit : it < n) by (apply H2; eapply nth_error_In; eauto).
      assert (Hne : forall k y, k <> p -> nth_error st' k = Some y -> it <> y).
      { intros k y Hk Hy <-. apply Hk. eapply NoDup_nth_error; [exact H1| |congruence]. apply nth_error_Some. congruence. }
      assert (A1 : (exists out1, match nth_error st' (p + 1) with Some above => check L dbg segs out it above | None => Ok out end = Ok out1 /\ Forall justified out1) \/
        (dbg = true /\ match nth_error st' (p + 1) with Some above => check L dbg segs out it above | None => Ok out end = Trap)).
      { destruct (nth_error st' (p + 1)) as [y|] eqn:Ey; [|left; eauto].
        apply check_ok; auto; [apply H2; eapply nth_error_In; eauto|apply (Hne (p + 1)); [lia|exact Ey]]. }
      destruct A1 as [(out1 & -> & Ho1)|(-> & ->)]; [|right; auto]. cbn [bind].
      assert (A2 : (exists out2, match (if p =? 0 then None else nth_error st' (p - 1)) with Some below => check L dbg segs out1 it below | None => Ok out1 end = Ok out2 /\ Forall justified out2) \/
        (dbg = true /\ match (if p =? 0 then None else nth_error st' (p - 1)) with Some below => check L dbg segs out1 it below | None => Ok out1 end = Trap)).
      { destruct (p =? 0) eqn:Ep; [left; eauto|]. apply Nat.eqb_neq in Ep.
        destruct (nth_error st' (p - 1)) as [y|] eqn:Ey; [|left; eauto].
        apply check_ok; auto; [apply H2; eapply nth_error_In; eauto|apply (Hne (p - 1)); [lia|exact Ey]]. }
      destruct A2 as [(out2 & -> & Ho2)|(-> & ->)]; [|right; auto]. cbn [bind]. left. exists st', out2. auto.
    - destruct (os_find os (comp segs) status (ev_id e)) as [p|] eqn:E; [|left; exists status, out; auto].
      apply (sl_find os Hos) in E. destruct (erase_at_split status p E) as (l1 & x & l2 & -> & -> & Er). rewrite Er.
      rewrite nth_next, nth_prev.
      assert (H1 : NoDup (l1 ++ l2)) by (apply NoDup_remove_1 in Hst; exact Hst).
      assert (H2 : forall i, In i (l1 ++ l2) -> In i (l1 ++ x :: l2)).
      { intros i Hi. apply in_app_or in Hi. apply in_or_app. cbn. intuition. }
      assert (A1 : (exists out1, match hd_error l2, hd_error (rev l1) with Some above, Some below => check L dbg segs out above below | _, _ => Ok out end = Ok out1 /\ Forall justified out1) \/
        (dbg = true /\ match hd_error l2, hd_error (rev l1) with Some above, Some below => check L dbg segs out above below | _, _ => Ok out end = Trap)).
      { destruct (hd_error l2) as [y|] eqn:Ey; [|left; eauto]. destruct (hd_error (rev l1)) as [z|] eqn:Ez; [|left; eauto].
        apply hd_error_In in Ey. apply hd_error_In, in_rev in Ez.
        apply check_ok; auto; [apply Hlt, H2, in_or_app; auto|apply Hlt, H2, in_or_app; auto|].
        intros <-. clear - H1 Ey Ez. induction l1 as [|a l1 IH]; [destruct Ez|]. cbn in H1. inversion H1; subst.
        destruct Ez as [->|Ez]; [apply H2; apply in_or_app; auto|auto]. }
      destruct A1 as [(out1 & -> & Ho1)|(-> & ->)]; [|right; auto]. cbn [bind]. left. exists (l1 ++ l2), out1. auto 8.
  Qed.

  Lemma sweep_sound evs : Permutation (events segs) evs ->
    (exists out, sweep L dbg os segs evs = Ok out /\ Forall justified out) \/ (dbg = true /\ sweep L dbg os segs evs = Trap).
  Proof.
    intros Hp. unfold sweep.
    destruct (sound_run evs [] []) as [(st' & E & H)|(-> & E)].
    - apply (start_ids_perm segs), Hp.
    - intros i [].
    - constructor.
    - intros i [].
    - intros e He. apply Permutation_sym in Hp. apply (Permutation_in _ Hp), In_events in He as (i & s & Hs & He).
      assert (Hi : i < n) by (apply nth_error_Some; congruence). destruct He as [-> | ->]; exact Hi.
    - constructor.
    - left. rewrite E. destruct st' as [? out]. cbn. eauto.
    - right. rewrite E. auto.
  Qed.
End Sound.
