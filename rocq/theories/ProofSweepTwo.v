(** * The sweep when no vertical line meets three segments *)

From Coq Require Import List Arith Bool Lia Permutation Sorted Reals Lra Psatz.
From Verif Require Import Scalar Linal Result SpecReal VecR VecLemmas ModelShapes ModelIntersect ModelMesh ModelSweep SpecSweep ProofMesh ProofIntersect ProofSweep ProofSweepReal.
Import ListNotations.
Local Open Scope R_scope.

Lemma height_source {M} (s : segment (RS M) 2) : left_to_right s -> fst (snd (g_source s : vec R 2)) = height s (lx s).
Proof.
  unfold left_to_right, height, lx. destruct s as [[ax [ay []]] [bx [by_ []]]]. cbn. intros H.
  assert (K : forall a b c d : R, a < b -> c = c + (d - c) * ((a - a) / (b - a))) by (intros; field; lra).
  exact (K ax bx ay by_ H).
Qed.

Section Two.
  Context {M : R} (L : Linal (RS M)) (HL : LinalR L) (Hv : forall n (v : vec R n), veq L v v = true) (He0 : leps L = 0).
  Context (dbg : bool) (os : ordered_set) (Hos : std_set os) (segs : list (segment (RS M) 2)) (Hgp : general_position (leps L) segs).
  Context (Htwo : forall x i j k, i <> j -> j <> k -> i <> k -> spanning segs x i -> spanning segs x j -> spanning segs x k -> False).
  Context (evs : list (event (RS M))) (Hpop : pop_order segs evs).
  Let cmp := comp segs.
  Let step := sweep_step L dbg os segs.

  Lemma comp_two x u v : u <> v -> spanning segs x u -> spanning segs x v -> cmp u v = negb (cmp v u).
  Proof.
    intros Huv (s & Es & Hs) (s' & Es' & Hs'). unfold cmp, comp. rewrite Es, Es'.
    assert (H : left_to_right s) by (eapply (gp_right _ _ Hgp), nth_error_In; eassumption).
    assert (H' : left_to_right s') by (eapply (gp_right _ _ Hgp), nth_error_In; eassumption).
    pose proof (below_R s s' H H') as B. pose proof (below_R s' s H' H) as B'. rewrite Rmax_comm in B'.
    set (m := Rmax (lx s) (lx s')) in *.
    assert (Hm1 : lx s <= m) by apply Rmax_l. assert (Hm2 : lx s' <= m) by apply Rmax_r.
    assert (Hmx : m <= x) by (unfold m, Rmax; destruct (Rle_dec _ _); [apply Hs'|apply Hs]).
    assert (D : height s m <> height s' m).
    { intros E. assert (Sm : spans s m /\ spans s' m) by (unfold spans, lx in *; destruct Hs, Hs'; repeat split; lra).
      destruct Sm as (S1 & S2). unfold m, Rmax in S1, S2, E. destruct (Rle_dec (lx s) (lx s')).
      - apply (gp_start _ _ Hgp u v s s' Huv Es Es'). apply on_segment_height; [exact H|]. split; [exact S1|].
        transitivity (height s' (lx s')); [apply height_source, H'|symmetry; exact E].
      - apply (gp_start _ _ Hgp v u s' s (not_eq_sym Huv) Es' Es). apply on_segment_height; [exact H'|]. split; [exact S2|].
        transitivity (height s (lx s)); [apply height_source, H|exact E]. }
    destruct (below s s'), (below s' s); try reflexivity; exfalso.
    - destruct B as (B & _), B' as (B' & _). specialize (B eq_refl). specialize (B' eq_refl). lra.
    - destruct (Rtotal_order (height s m) (height s' m)) as [K|[K|K]]; [apply B in K|contradiction|apply B' in K]; discriminate.
  Qed.

  Lemma sw_two x u v : u <> v -> spanning segs x u -> spanning segs x v -> strict_weak cmp [u; v].
  Proof.
    intros Huv Hu Hv'. pose proof (comp_two x u v Huv Hu Hv') as E. pose proof (comp_self segs u) as Eu. pose proof (comp_self segs v) as Ev.
    apply (sw_rank cmp (fun w => if Nat.eq_dec w u then (if cmp u v then 0 else 2) else 1)).
    fold cmp in Eu, Ev.
    assert (K : forall w, In w [u; v] -> w = u \/ w = v) by (intros w [<-|[<-|[]]]; auto).
    intros a b Ha Hb. apply K in Ha, Hb. destruct Ha as [->| ->], Hb as [->| ->]; destruct (Nat.eq_dec u u), (Nat.eq_dec v u); try congruence;
      try rewrite Eu; try rewrite Ev; destruct (cmp u v), (cmp v u); try discriminate; split; intros; try discriminate; try lra; reflexivity.
  Qed.
  Lemma sw_one u : strict_weak cmp [u].
  Proof.
    apply (sw_rank cmp (fun _ => 0)). intros a b [<-|[]] [<-|[]]. unfold cmp. rewrite comp_self. split; [discriminate|lra].
  Qed.

  Definition act (pre : list (event (RS M))) (l : list nat) : Prop := forall u, In u l <-> started segs pre u /\ ~ ended segs pre u.

  Lemma act_start pre e post i s l1 l2 : evs = pre ++ e :: post -> nth_error segs i = Some s -> e = mkEvent (g_source s) i true ->
    act pre (l1 ++ l2) -> act (pre ++ [e]) (l1 ++ i :: l2).
  Proof.
    intros E Es He I1 u. assert (Hu : In u (l1 ++ i :: l2) <-> u = i \/ In u (l1 ++ l2)).
    { rewrite !in_app_iff. cbn. intuition. }
    rewrite Hu, (I1 u). assert (A : ended segs (pre ++ [e]) u <-> ended segs pre u).
    { unfold ended. split; intros (s' & Es' & H); exists s'; split; try exact Es'.
      - apply in_app_or in H as [H|[H|[]]]; [exact H|]. rewrite He in H. discriminate.
      - apply in_or_app. auto. }
    rewrite A. split.
    - intros [->|(H1 & H2)].
      + split; [exists s; split; [exact Es|]; apply in_or_app; right; left; exact He|].
        intros (s' & Es' & H). rewrite Es in Es'. injection Es' as <-.
        destruct (pop_sorted segs evs Hpop _ _ _ E) as (P1 & _). specialize (P1 _ H). pose proof (seg_right L segs Hgp i s Es) as Hr.
        unfold ex in P1. rewrite He in P1. cbn [ev_point] in P1. unfold left_to_right in Hr. lra.
      + split; [|exact H2]. destruct H1 as (s' & Es' & H). exists s'. split; [exact Es'|]. apply in_or_app. auto.
    - intros ((s' & Es' & H) & H2). apply in_app_or in H as [H|[H|[]]].
      + right. split; [|exact H2]. exists s'. auto.
      + left. rewrite He in H. injection H. auto.
  Qed.
  Lemma act_end pre e post i s l1 l2 : evs = pre ++ e :: post -> nth_error segs i = Some s -> e = mkEvent (g_target s) i false ->
    NoDup (l1 ++ i :: l2) -> act pre (l1 ++ i :: l2) -> act (pre ++ [e]) (l1 ++ l2).
  Proof.
    intros E Es He Hnds I1 u. assert (Hu : In u (l1 ++ l2) <-> u <> i /\ In u (l1 ++ i :: l2)).
    { apply NoDup_remove_2 in Hnds. split.
      - intros H. split; [intros ->; contradiction|]. rewrite in_app_iff in *. cbn. intuition.
      - intros (H1 & H2). rewrite in_app_iff in *. cbn in H2. intuition. congruence. }
    rewrite Hu, (I1 u). split.
    - intros (Hne & ((s' & Es' & H) & H2)). split; [exists s'; split; [exact Es'|apply in_or_app; auto]|].
      intros (s'' & Es'' & H3). apply in_app_or in H3 as [H3|[H3|[]]]; [apply H2; exists s''; auto|]. rewrite He in H3. injection H3 as _ ?. congruence.
    - intros ((s' & Es' & H) & H2). split.
      + intros ->. apply H2. exists s. split; [exact Es|]. apply in_or_app. right. left. exact He.
      + split.
        * exists s'. split; [exact Es'|]. apply in_app_or in H as [H|[H|[]]]; [exact H|]. rewrite He in H. discriminate.
        * intros (s'' & Es'' & H3). apply H2. exists s''. split; [exact Es''|]. apply in_or_app. auto.
  Qed.

  Definition rep (p : nat * nat) (q : vec R 2) : Prop := exists s s', nth_error segs (fst p) = Some s /\ nth_error segs (snd p) = Some s' /\
    intersect_segment2 L dbg (leps L) s s' = Ok (Some q).

  Record inv2 (pre : list (event (RS M))) (status : list nat) (out : list (vec R 2)) (ps : list (nat * nat)) : Prop := mkInv2 {
    i2_act : act pre status;
    i2_sorted : StronglySorted (fun i j => cmp i j = true) status;
    i2_ps : NoDup ps;
    i2_pairs : forall i j, In (i, j) ps -> i <> j /\ ~ In (j, i) ps /\ started segs pre i /\ started segs pre j;
    i2_rep : Forall2 rep ps out;
    i2_all : forall i j s s', i <> j -> nth_error segs i = Some s -> nth_error segs j = Some s' ->
      started segs pre i -> started segs pre j -> meet s s' -> In (i, j) ps \/ In (j, i) ps }.

  Lemma started_mono pre e i : started segs pre i -> started segs (pre ++ [e]) i.
  Proof. intros (s & Es & H). exists s. split; [exact Es|]. apply in_or_app. auto. Qed.

  (** a segment met by the one that starts is still in the status *)
  Lemma met_active pre e post i s j s' status : evs = pre ++ e :: post -> nth_error segs i = Some s -> e = mkEvent (g_source s) i true ->
    act pre status -> i <> j -> nth_error segs j = Some s' -> started segs pre j -> meet s s' -> In j status.
  Proof.
    intros E Es He Ha Hne Es' Hst Hm. apply Ha. split; [exact Hst|]. intros (s1 & Es1 & Hin). rewrite Es' in Es1. injection Es1 as <-.
    destruct (pop_sorted segs evs Hpop _ _ _ E) as (P1 & _). specialize (P1 _ Hin). unfold ex in P1. rewrite He in P1. cbn [ev_point] in P1.
    pose proof (seg_right L segs Hgp i s Es) as Hr. pose proof (seg_right L segs Hgp j s' Es') as Hr'.
    apply meet_touch in Hm as (x & (T1 & T1') & (T2 & T2') & T3); try assumption.
    assert (Hx : x = fst (g_source s)) by (apply Rle_antisym; [apply (Rle_trans _ _ _ T2' P1)|exact T1]).
    apply (gp_start _ _ Hgp j i s' s (not_eq_sym Hne) Es' Es). apply on_segment_height; [exact Hr'|].
    split; [subst x; split; assumption|]. transitivity (height s (lx s)); [apply height_source, Hr|]. subst x. exact T3.
  Qed.

  Lemma check_spec out i j s s' : nth_error segs i = Some s -> nth_error segs j = Some s' ->
    exists o, intersect_segment2 L dbg (leps L) s s' = Ok o /\ check L dbg segs out i j = Ok (match o with Some q => out ++ [q] | None => out end).
  Proof.
    intros Es Es'. destruct (segment2_total HL (leps L) (lr_eps L HL) dbg s s' Hv) as (o & Eo). exists o. split; [exact Eo|].
    unfold check, at_. rewrite Es, Es'. cbn [bind]. rewrite Eo. reflexivity.
  Qed.

  Lemma inv2_step pre e post status out ps : evs = pre ++ e :: post -> inv2 pre status out ps ->
    exists status' out' ps', step (status, out) e = Ok (status', out') /\ inv2 (pre ++ [e]) status' out' ps'.
  Proof.
    intros E [I1 I2 I3 I4 I5 I6].
    assert (Hnd : NoDup (pre ++ e :: post)) by (rewrite <- E; apply (pop_NoDup segs), Hpop).
    assert (Hspan : forall u, In u status -> spanning segs (ex e) u).
    { intros u Hu. apply I1 in Hu as (H1 & H2). eapply active_spans; eassumption. }
    assert (Hnds : NoDup status).
    { clear - I2. induction status as [|a l IH]; constructor; apply StronglySorted_inv in I2 as (I2 & F); [|auto].
      intros H. eapply Forall_forall in F; [|exact H]. unfold cmp in F. rewrite comp_self in F. discriminate. }
    assert (He : In e evs) by (rewrite E; apply in_or_app; right; left; reflexivity).
    apply (pop_In segs evs Hpop) in He as (i & s & Es & He). unfold step, sweep_step. destruct He as [He|He]; rewrite He; cbn [ev_start ev_id]; rewrite <- He.
    - assert (Hi : spanning segs (ex e) i).
      { exists s. split; [exact Es|]. pose proof (seg_right L segs Hgp i s Es) as Hr. unfold spans, ex. rewrite He. cbn [ev_point]. unfold left_to_right in Hr. lra. }
      assert (Hni : ~ In i status).
      { intros H. apply I1 in H as ((s' & Es' & Hin) & _). rewrite Es in Es'. injection Es' as <-. rewrite <- He in Hin.
        apply NoDup_remove_2 in Hnd. apply Hnd, in_or_app. auto. }
      assert (Hnst : ~ started segs pre i).
      { intros (s' & Es' & Hin). rewrite Es in Es'. injection Es' as <-. rewrite <- He in Hin. apply NoDup_remove_2 in Hnd. apply Hnd, in_or_app. auto. }
      assert (Hstn : forall u, started segs (pre ++ [e]) u -> u = i \/ started segs pre u).
      { intros u (s' & Es' & H). apply in_app_or in H as [H|[H|[]]]; [right; exists s'; auto|]. left. rewrite He in H. injection H. auto. }
      assert (Hsti : started segs (pre ++ [e]) i) by (exists s; split; [exact Es|]; apply in_or_app; right; left; exact He).
      assert (Hps : forall a b, In (a, b) ps -> a <> i /\ b <> i).
      { intros a b H. apply I4 in H as (_ & _ & H1 & H2). split; intros ->; contradiction. }
      destruct status as [|y status].
      + pose proof (insert_forced os Hos (comp segs) i [] [] (sw_one i) (SSorted_nil _)) as Ei. cbn in Ei. rewrite Ei by tauto.
        cbn. exists [i], out, ps. split; [reflexivity|]. split; try assumption.
        * apply (act_start pre e post i s [] [] E Es He I1).
        * constructor; [constructor|constructor].
        * intros a b H. pose proof (I4 a b H) as (H1 & H2 & H3 & H4). repeat split; auto using started_mono.
        * intros a b sa sb Hne Ea Eb Sa Sb Hm. destruct (Hstn a Sa) as [->|Sa'], (Hstn b Sb) as [->|Sb'].
          -- contradiction.
          -- exfalso. rewrite Es in Ea. injection Ea as <-. apply (met_active pre e post i s b sb [] E Es He I1 Hne Eb Sb' Hm).
          -- exfalso. rewrite Es in Eb. injection Eb as <-. apply (met_active pre e post i s a sa [] E Es He I1 (not_eq_sym Hne) Ea Sa').
             destruct Hm as (q & Q1 & Q2). exists q. auto.
          -- apply (I6 a b sa sb); assumption.
      + assert (status = []).
        { destruct status as [|z status]; [reflexivity|exfalso]. apply (Htwo (ex e) i y z).
          - intros ->. apply Hni. left. reflexivity.
          - intros ->. assert (Hn : ~ In z (z :: status)) by (inversion Hnds; assumption). apply Hn. left. reflexivity.
          - intros ->. apply Hni. right. left. reflexivity.
          - exact Hi.
          - apply Hspan. left. reflexivity.
          - apply Hspan. right. left. reflexivity. }
        subst status.
        assert (Hiy : i <> y) by (intros ->; apply Hni; left; reflexivity).
        assert (Hy : spanning segs (ex e) y) by (apply Hspan; left; reflexivity).
        pose proof (sw_two (ex e) i y Hiy Hi Hy) as Hsw. pose proof (comp_two (ex e) i y Hiy Hi Hy) as Ec.
        assert (exists s', nth_error segs y = Some s') as (s' & Es') by (destruct Hy as (s' & ? & _); eauto).
        destruct (check_spec out i y s s' Es Es') as (o & Eo & Eck).
        (* both sides *)
        assert (Hres : exists status', StronglySorted (fun i j => cmp i j = true) status' /\ act (pre ++ [e]) status' /\
          step ([y], out) e = Ok (status', match o with Some q => out ++ [q] | None => out end)).
        { unfold step, sweep_step. rewrite He. cbn [ev_start ev_id]. rewrite <- He. destruct (cmp i y) eqn:Eiy.
          - exists [i; y]. split; [constructor; [constructor; [constructor|constructor]|constructor; [exact Eiy|constructor]]|].
            split; [apply (act_start pre e post i s [] [y] E Es He I1)|].
            pose proof (insert_forced os Hos (comp segs) i [] [y] Hsw I2) as Ei. cbn in Ei. rewrite Ei; [|tauto|intros ? [<-|[]]; exact Eiy].
            cbn. rewrite Eck. reflexivity.
          - assert (Eyi : cmp y i = true) by (destruct (cmp y i); [reflexivity|discriminate]).
            exists [y; i]. split; [constructor; [constructor; [constructor|constructor]|constructor; [exact Eyi|constructor]]|].
            split; [apply (act_start pre e post i s [y] [] E Es He I1)|].
            pose proof (insert_forced os Hos (comp segs) i [y] [] Hsw I2) as Ei. cbn in Ei. rewrite Ei; [|intros ? [<-|[]]; exact Eyi|tauto].
            cbn. rewrite Eck. reflexivity. }
        destruct Hres as (status' & Hs' & Ha' & Est). unfold step, sweep_step in Est. rewrite He in Est. cbn [ev_start ev_id] in Est. rewrite Est.
        (* the meeting pairs *)
        assert (Hall : forall a b sa sb, a <> b -> nth_error segs a = Some sa -> nth_error segs b = Some sb ->
          started segs (pre ++ [e]) a -> started segs (pre ++ [e]) b -> meet sa sb -> In (a, b) ps \/ In (b, a) ps \/
          (o <> None /\ ((a = i /\ b = y) \/ (a = y /\ b = i)))).
        { assert (Hsome : meet s s' -> o <> None).
          { intros Hm. pose proof (gp_angle _ _ Hgp i y s s' Hiy Es Es' Hm) as Hang. destruct Hm as (q & Q1 & Q2).
            rewrite (segment2_complete HL (leps L) (lr_eps L HL) dbg s s' q Hv Hang Q1 Q2) in Eo. apply Ok_inj in Eo. subst o. discriminate. }
          assert (Hsym : forall sa sb : segment (RS M) 2, meet sa sb -> meet sb sa) by (intros sa sb (q & Q1 & Q2); exists q; auto).
          intros a b sa sb Hne Ea Eb Sa Sb Hm. destruct (Hstn a Sa) as [->|Sa'], (Hstn b Sb) as [->|Sb'].
          - contradiction.
          - rewrite Es in Ea. injection Ea as <-. destruct (met_active pre e post i s b sb [y] E Es He I1 Hne Eb Sb' Hm) as [<-|[]].
            rewrite Es' in Eb. injection Eb as <-. right. right. split; [apply Hsome, Hm|]. auto.
          - rewrite Es in Eb. injection Eb as <-. destruct (met_active pre e post i s a sa [y] E Es He I1 (not_eq_sym Hne) Ea Sa' (Hsym _ _ Hm)) as [<-|[]].
            rewrite Es' in Ea. injection Ea as <-. right. right. split; [apply Hsome, Hsym, Hm|]. auto.
          - destruct (I6 a b sa sb) as [K|K]; auto. }
        destruct o as [q|].
        * exists status', (out ++ [q]), (ps ++ [(i, y)]). split; [reflexivity|]. split; try assumption.
          -- apply NoDup_Add with (l := ps) (a := (i, y)).
             ++ pose proof (Add_app (i, y) ps []) as K. rewrite app_nil_r in K. exact K.
             ++ split; [exact I3|]. intros H. apply Hps in H. destruct H; congruence.
          -- intros a b H. apply in_app_or in H as [H|[H|[]]].
             ++ pose proof (Hps a b H) as (N1 & N2). pose proof (I4 a b H) as (H1 & H2 & H3 & H4). repeat split; auto using started_mono.
                intros K. apply in_app_or in K as [K|[K|[]]]; [contradiction|]. injection K as K1 K2. congruence.
             ++ injection H as <- <-. split; [exact Hiy|]. split.
                ** intros K. apply in_app_or in K as [K|[K|[]]]; [apply Hps in K; destruct K; congruence|]. injection K as K1 K2. congruence.
                ** split; [exact Hsti|]. apply started_mono. apply (I1 y). left. reflexivity.
          -- apply Forall2_app; [exact I5|]. constructor; [|constructor]. exists s, s'. auto.
          -- intros a b sa sb Hne Ea Eb Sa Sb Hm. rewrite !in_app_iff. cbn.
             destruct (Hall a b sa sb Hne Ea Eb Sa Sb Hm) as [K|[K|(_ & [(-> & ->)|(-> & ->)])]]; auto.
        * exists status', out, ps. split; [reflexivity|]. split; try assumption.
          -- intros a b H. pose proof (I4 a b H) as (H1 & H2 & H3 & H4). repeat split; auto using started_mono.
          -- intros a b sa sb Hne Ea Eb Sa Sb Hm. destruct (Hall a b sa sb Hne Ea Eb Sa Sb Hm) as [K|[K|(K & _)]]; auto. congruence.
    - assert (Hin : In i status).
      { apply I1. split.
        - assert (Hst : In (mkEvent (g_source s) i true) (pre ++ e :: post)) by (rewrite <- E; apply (pop_In segs evs Hpop); exists i, s; auto).
          exists s. split; [exact Es|]. apply in_app_or in Hst as [Hst|[Hst|Hst]]; [exact Hst|rewrite He in Hst; discriminate|].
          destruct (pop_sorted segs evs Hpop _ _ _ E) as (_ & P2). specialize (P2 _ Hst). pose proof (seg_right L segs Hgp i s Es) as Hr.
          unfold ex in P2. rewrite He in P2. cbn [ev_point] in P2. unfold left_to_right in Hr. lra.
        - intros (s' & Es' & H). rewrite Es in Es'. injection Es' as <-. rewrite <- He in H.
          apply NoDup_remove_2 in Hnd. apply Hnd, in_or_app. auto. }
      assert (Hst1 : forall u, started segs (pre ++ [e]) u -> started segs pre u).
      { intros u (s' & Es' & H). apply in_app_or in H as [H|[H|[]]]; [exists s'; auto|]. rewrite He in H. discriminate. }
      destruct (in_split i status Hin) as (l1 & l2 & ->).
      assert (Hone : l1 = [] /\ l2 = [] \/ (exists y, y <> i /\ spanning segs (ex e) y /\ ((l1 = [y] /\ l2 = []) \/ (l1 = [] /\ l2 = [y])))).
      { assert (Hdis : forall y, In y (l1 ++ l2) -> y <> i) by (intros y Hy ->; apply NoDup_remove_2 in Hnds; contradiction).
        assert (Hsp : forall y, In y (l1 ++ l2) -> spanning segs (ex e) y) by (intros y Hy; apply Hspan; rewrite in_app_iff in *; cbn; intuition).
        assert (Hn2 : NoDup (l1 ++ l2)) by (apply NoDup_remove_1 in Hnds; exact Hnds).
        assert (H3 : forall y z r, l1 ++ l2 <> y :: z :: r).
        { intros y z r Eq. rewrite Eq in *. assert (Hn : ~ In y (z :: r)) by (inversion Hn2; assumption).
          apply (Htwo (ex e) i y z).
          - apply not_eq_sym, Hdis. left. reflexivity.
          - intros ->. apply Hn. left. reflexivity.
          - apply not_eq_sym, Hdis. right. left. reflexivity.
          - apply Hspan, Hin.
          - apply Hsp. left. reflexivity.
          - apply Hsp. right. left. reflexivity. }
        destruct l1 as [|y [|y' l1]]; destruct l2 as [|z [|z' l2]]; cbn [app] in *; try (exfalso; eapply H3; reflexivity).
        - left. auto.
        - right. exists z. split; [apply Hdis; left; reflexivity|]. split; [apply Hsp; left; reflexivity|]. auto.
        - right. exists y. split; [apply Hdis; left; reflexivity|]. split; [apply Hsp; left; reflexivity|]. auto. }
      assert (Hsw : strict_weak cmp (l1 ++ i :: l2)).
      { destruct Hone as [(-> & ->)|(y & Hne & Hy & [(-> & ->)|(-> & ->)])]; cbn.
        - apply sw_one.
        - apply (sw_two (ex e)); auto.
        - apply (sw_two (ex e)); auto. }
      rewrite (find_forced os Hos (comp segs) i l1 l2 Hsw I2). rewrite nth_next, nth_prev, erase_at_app.
      exists (l1 ++ l2), out, ps. split.
      { destruct Hone as [(-> & ->)|(y & Hne & Hy & [(-> & ->)|(-> & ->)])]; reflexivity. }
      split; try assumption.
      + apply (act_end pre e post i s l1 l2 E Es He Hnds I1).
      + clear - I2. induction l1 as [|a l1 IH]; cbn in *; apply StronglySorted_inv in I2 as (I2 & F); [exact I2|].
        constructor; [apply IH, I2|]. apply Forall_forall. intros z Hz. eapply Forall_forall in F; [exact F|].
        rewrite in_app_iff in *. cbn. intuition.
      + intros a b H. pose proof (I4 a b H) as (H1 & H2 & H3 & H4). repeat split; auto using started_mono.
      + intros a b sa sb Hne Ea Eb Sa Sb Hm. apply (I6 a b sa sb); auto.
  Qed.

  Lemma inv2_run post : forall pre status out ps, evs = pre ++ post -> inv2 pre status out ps ->
    exists status' out' ps', foldM step post (status, out) = Ok (status', out') /\ inv2 evs status' out' ps'.
  Proof.
    induction post as [|e post IH]; intros pre status out ps E Hi.
    - exists status, out, ps. split; [reflexivity|]. rewrite app_nil_r in E. rewrite E. exact Hi.
    - destruct (inv2_step pre e post status out ps E Hi) as (st1 & out1 & ps1 & E1 & Hi1). cbn [foldM]. rewrite E1. cbn [bind].
      apply (IH (pre ++ [e]) st1 out1 ps1); [rewrite <- app_assoc; exact E|exact Hi1].
  Qed.

  Lemma sweep_two : exists out, sweep L dbg os segs evs = Ok out /\ reports_once segs out.
  Proof.
    assert (I0 : inv2 [] [] [] []).
    { split.
      - intros u. split; [intros []|]. intros ((s & _ & []) & _).
      - constructor.
      - constructor.
      - intros i j [].
      - constructor.
      - intros i j s s' _ _ _ (? & _ & []). }
    destruct (inv2_run evs [] [] [] [] eq_refl I0) as (st & out & ps & E & [I1 I2 I3 I4 I5 I6]).
    exists out. split; [apply (f_equal (fun r => let* (_, out) := r in Ok out) E)|]. exists ps.
    split; [exact I3|]. split; [intros i j H; destruct (I4 i j H) as (H1 & H2 & _); auto|]. split.
    - clear - I5 HL He0. induction I5 as [|[i j] q ps out (s & s' & Es & Es' & Eq) _ IH]; constructor; [|exact IH].
      exists s, s'. split; [exact Es|]. split; [exact Es'|].
      apply (segment2_sound HL (leps L) (lr_eps L HL)) in Eq as (t & r & Ht & Hr & E1 & E2). rewrite He0 in *.
      split; [exists t; split; [lra|exact E1]|exists r; split; [lra|exact E2]].
    - assert (Hst : forall i s, nth_error segs i = Some s -> started segs evs i).
      { intros i s Es. exists s. split; [exact Es|]. apply (pop_In segs evs Hpop). exists i, s. auto. }
      intros i j s s' Hne Es Es' Hm. apply (I6 i j s s'); eauto.
  Qed.
End Two.
