(** * Pairing halfedges is memory safe whatever the scalar type and [operator==] *)

From Coq Require Import List Arith Bool Lia.
From Verif Require Import Scalar Linal Result ModelKdTree SpecKdTree ProofKdTree ProofKdTreeUpdate
  ModelMesh SpecMesh ProofMesh ProofMeshOpp ProofMeshMisc.
Import ListNotations.

Local Arguments Nat.mul _ _ : simpl never.
Local Arguments Nat.modulo _ _ : simpl never.
Local Arguments vec _ _ : simpl never.

Section Safe.
  Context {S : Scalar} (L : Linal S) (W : nat) (dbg : bool) (a : addr) (SZ : nat) (ts : list (triangle S)).
  Let N := 3 * length ts.

  Lemma safe_nav m i h : well_formed L a ts m -> nth_error (m_halfedges m) i = Some h ->
    he_index h = i /\ (exists p, start_point a m h = Ok p) /\ (exists q, end_point a m h = Ok q).
  Proof.
    intros Hwf Hh.
    assert (Hi : i < 3 * length ts) by (rewrite <- (wf_halfedge_count _ _ _ _ Hwf); eapply nth_error_lt; eauto).
    assert (Hc : i mod 3 < 3) by (apply Nat.mod_upper_bound; lia).
    destruct (nth_error_get ts (i / 3)) as (t & Ht); [apply Nat.div_lt_upper_bound; lia|].
    pose proof (Nat.div_mod i 3 ltac:(lia)) as Edm.
    assert (Hc' : (i mod 3 + 1) mod 3 < 3) by (apply Nat.mod_upper_bound; lia).
    destruct (wf_halfedge _ _ _ _ Hwf _ t _ Ht Hc) as (h' & p & A1 & A2 & A3 & A4 & A5 & A6 & A7 & A8).
    destruct (wf_halfedge _ _ _ _ Hwf _ t _ Ht Hc') as (nx & q & B1 & B2 & B3 & B4 & B5 & B6 & B7 & B8).
    rewrite <- Edm in A1, A2. rewrite Hh in A1; apply Some_inj in A1; subst h'.
    pose proof (nth_error_lt _ _ _ A7) as L1. rewrite <- (wf_vertex_count _ _ _ _ Hwf) in L1.
    pose proof (nth_error_lt _ _ _ B7) as L2. rewrite <- (wf_vertex_count _ _ _ _ Hwf) in L2.
    destruct (nth_error_get _ _ L1) as (u & Hu). destruct (nth_error_get _ _ L2) as (v & Hv).
    destruct (wf_vertex _ _ _ _ Hwf _ _ Hu) as (U1 & U2 & _).
    destruct (wf_vertex _ _ _ _ Hwf _ _ Hv) as (V1 & V2 & _).
    rewrite <- A5 in B1.
    split; [exact A2|]. split.
    - exists p. unfold start_point, getVertex, getVector. rewrite A4, deref_only. cbn [bind].
      rewrite (at_Ok _ _ _ Hu). cbn [bind]. rewrite U2, deref_only. cbn [bind].
      unfold mesh_getVector. rewrite U1. apply at_Ok; assumption.
    - exists q. unfold end_point, getNextVertex, getNext, getVertex, getVector. rewrite A4, deref_only. cbn [bind].
      rewrite (at_Ok _ _ _ B1). cbn [bind]. rewrite B4, deref_only. cbn [bind].
      rewrite (at_Ok _ _ _ Hv). cbn [bind]. rewrite V2, deref_only. cbn [bind].
      unfold mesh_getVector. rewrite V1. apply at_Ok; assumption.
  Qed.

  (** all payloads are lists of halfedge positions below [k] *)
  Definition pays (k : nat) (t : @tree S 3 (list nat)) : Prop :=
    forall p l, In (p, l) (elements 3 t) -> forall j, In j l -> j < k.

  Lemma pays_insert k (t : @tree S 3 (list nat)) p v : forall d, pays k t -> (forall j, In j v -> j < k) ->
    pays k (fst (insertHelper L 3 SZ t p v d)).
  Proof.
    induction t as [|q w l IHl r IHr]; intros d Ht Hv; cbn [insertHelper].
    - intros p' l' [E|[]]. injection E as <- <-. exact Hv.
    - assert (Hw : forall j, In j w -> j < k) by (apply (Ht q w); left; reflexivity).
      assert (Hl : pays k l) by (intros p' l' H; apply (Ht p' l'); cbn; right; apply in_or_app; auto).
      assert (Hr : pays k r) by (intros p' l' H; apply (Ht p' l'); cbn; right; apply in_or_app; auto).
      destruct (veq L q p); [exact Ht|].
      destruct (sltb _ _).
      + specialize (IHl (next_depth SZ d) Hl Hv). destruct (insertHelper L 3 SZ l p v (next_depth SZ d)) as [l' b]. cbn [fst] in *.
        intros p' l0 H. cbn in H. destruct H as [E|H]; [injection E as <- <-; exact Hw|].
        apply in_app_or in H as [H|H]; [apply (IHl _ _ H)|apply (Hr _ _ H)].
      + specialize (IHr (next_depth SZ d) Hr Hv). destruct (insertHelper L 3 SZ r p v (next_depth SZ d)) as [r' b]. cbn [fst] in *.
        intros p' l0 H. cbn in H. destruct H as [E|H]; [injection E as <- <-; exact Hw|].
        apply in_app_or in H as [H|H]; [apply (Hl _ _ H)|apply (IHr _ _ H)].
  Qed.

  Lemma pays_update k (t : @tree S 3 (list nat)) : forall pth, pays k t ->
    pays (k + 1) (update_payload (fun l => l ++ [k]) pth t).
  Proof.
    induction t as [|q w l IHl r IHr]; intros pth Ht; [intros p' l' H; destruct pth; destruct H|].
    assert (Hw : forall j, In j w -> j < k) by (apply (Ht q w); left; reflexivity).
    assert (Hl : pays k l) by (intros p' l' H; apply (Ht p' l'); cbn; right; apply in_or_app; auto).
    assert (Hr : pays k r) by (intros p' l' H; apply (Ht p' l'); cbn; right; apply in_or_app; auto).
    assert (Mono : forall t, pays k t -> pays (k + 1) t) by (intros t0 H p' l' Hin j Hj; specialize (H _ _ Hin j Hj); lia).
    destruct pth as [|[] pth]; cbn [update_payload]; intros p' l' H; cbn in H; destruct H as [E|H];
      try (injection E as <- <-; intros j Hj; try (apply in_app_or in Hj as [Hj|[<-|[]]]); try specialize (Hw _ Hj); lia);
      apply in_app_or in H as [H|H].
    - apply (Mono _ Hl _ _ H).
    - apply (Mono _ Hr _ _ H).
    - apply (Mono _ Hl _ _ H).
    - apply (IHr pth Hr _ _ H).
    - apply (IHl pth Hl _ _ H).
    - apply (Mono _ Hr _ _ H).
  Qed.

  Lemma update_nonempty (f : list nat -> list nat) (t : @tree S 3 (list nat)) pth : t <> Leaf -> update_payload f pth t <> Leaf.
  Proof. intros H. destruct t as [|q w l r]; [congruence|]. destruct pth as [|[] pth]; discriminate. Qed.
  Lemma insert_nonempty (t : @tree S 3 (list nat)) p v d : fst (insertHelper L 3 SZ t p v d) <> Leaf.
  Proof.
    destruct t as [|q w l r]; cbn; [discriminate|]. destruct (veq L q p); [discriminate|].
    destruct (sltb _ _); destruct (insertHelper _ _ _ _ _ _ _); discriminate.
  Qed.

  Lemma pays_nearest k (t : kdtree S 3 (list nat)) q : root t <> Leaf -> pays k (root t) ->
    exists b, nearest SZ t q = Ok b /\ forall j, In j (b_payload b) -> j < k.
  Proof.
    intros Hne Hp. unfold nearest. destruct (root t) as [|p v l r] eqn:E; [congruence|]. eexists; split; [reflexivity|].
    pose proof (nearest_from 3 SZ (Node p v l r) [] q (mkBest [] p v (kd_distance q p)) 0) as H. cbn zeta in H.
    destruct H as [->|[H _]].
    - cbn [b_payload]. apply (Hp p v). left; reflexivity.
    - apply (Hp _ _ H).
  Qed.

  Lemma safe_index m : well_formed L a ts m -> forall k, k <= N ->
    exists t, foldM (index_halfedge L a SZ m) (seq 0 k) kd_empty = Ok t /\ pays k (root t) /\ (0 < k -> root t <> Leaf).
  Proof.
    intros Hwf. induction k as [|k IH]; intros Hk.
    - exists kd_empty. split; [reflexivity|]. split; [intros p l []|lia].
    - destruct (IH ltac:(lia)) as (t & E & Hp & Hne).
      assert (Hkh : k < length (m_halfedges m)) by (rewrite (wf_halfedge_count _ _ _ _ Hwf); unfold N in Hk; lia).
      destruct (nth_error_get _ _ Hkh) as (h & Hh).
      destruct (safe_nav m k h Hwf Hh) as (Hidx & (p & Ep) & _).
      assert (K : exists t', index_halfedge L a SZ m t k = Ok t' /\ pays (k + 1) (root t') /\ root t' <> Leaf).
      { unfold index_halfedge. rewrite (at_Ok _ _ _ Hh). cbn [bind]. rewrite Ep. cbn [bind].
        destruct (search L SZ t p) eqn:Es.
        - assert (Hr : root t <> Leaf) by (intros E0; unfold search in Es; rewrite E0 in Es; discriminate).
          destruct (pays_nearest k t p Hr Hp) as (b & -> & _). cbn [bind]. eexists; split; [reflexivity|]. cbn [root].
          split; [apply pays_update; exact Hp|apply update_nonempty; exact Hr].
        - eexists; split; [reflexivity|]. unfold insert.
          pose proof (pays_insert (k + 1) (root t) p [k] 0) as H1. pose proof (insert_nonempty (root t) p [k] 0) as H2.
          destruct (insertHelper L 3 SZ (root t) p [k] 0) as [r b]. cbn [fst root] in *. split; [|exact H2].
          apply H1; [intros p' l' Hin j Hj; specialize (Hp _ _ Hin j Hj); lia|]. intros j [<-|[]]. lia. }
      destruct K as (t' & E' & Hp' & Hr'). exists t'. rewrite seq_snoc, foldM_app, E. cbn. rewrite E'.
      rewrite Nat.add_1_r in Hp'. auto.
  Qed.

  Lemma safe_candidate m start l : well_formed L a ts m -> (forall k, In k l -> k < N) ->
    exists f, find_candidate L a m start l = Ok f /\ forall k, f = Some k -> k < N.
  Proof.
    intros Hwf. induction l as [|k l IH]; intros Hl; [exists None; split; [reflexivity|discriminate]|].
    cbn [find_candidate].
    destruct (nth_error_get (m_halfedges m) k) as (h & Hh).
    { rewrite (wf_halfedge_count _ _ _ _ Hwf). apply Hl; left; reflexivity. }
    rewrite (at_Ok _ _ _ Hh). cbn [bind]. destruct (safe_nav m k h Hwf Hh) as (_ & _ & (q & ->)). cbn [bind].
    destruct (veq L q start).
    - exists (Some k). split; [reflexivity|]. intros k' E. injection E as <-. apply Hl. left; reflexivity.
    - apply IH. intros k' Hk'. apply Hl. right; exact Hk'.
  Qed.

  Lemma safe_step m t i : well_formed L a ts m -> root t <> Leaf -> pays N (root t) -> i < N ->
    (exists m', set_opposite1 L dbg a SZ t m i = Ok m' /\ sim m m') \/ (dbg = true /\ set_opposite1 L dbg a SZ t m i = Trap).
  Proof.
    intros Hwf Hne Hp Hi. unfold set_opposite1.
    destruct (nth_error_get (m_halfedges m) i) as (h & Hh); [rewrite (wf_halfedge_count _ _ _ _ Hwf); exact Hi|].
    rewrite (at_Ok _ _ _ Hh). cbn [bind].
    destruct (safe_nav m i h Hwf Hh) as (Hidx & (p & ->) & (q & ->)). cbn [bind].
    destruct (pays_nearest N t p Hne Hp) as (b & -> & Hb). cbn [bind].
    destruct (safe_candidate m q (b_payload b) Hwf Hb) as (f & -> & Hf). cbn [bind].
    destruct f as [k|].
    - left. destruct (nth_error_get (m_halfedges m) k) as (c & Hc); [rewrite (wf_halfedge_count _ _ _ _ Hwf); apply Hf; reflexivity|].
      rewrite (at_Ok _ _ _ Hc). cbn [bind].
      destruct (upd_Ok (m_halfedges m) i (set_opp (he_index c))) as (h1 & U1 & Ul1 & Un1); [eapply nth_error_lt; eauto|].
      rewrite U1. cbn [bind].
      destruct (upd_Ok h1 k (set_opp (he_index h))) as (h2 & U2 & Ul2 & Un2); [rewrite Ul1; eapply nth_error_lt; eauto|].
      rewrite U2. cbn [bind]. rewrite geo_assert_true by reflexivity. cbn [bind].
      eexists; split; [reflexivity|]. repeat split; cbn; try congruence.
      intros j g Hg. rewrite Un2, Un1, Hg. cbn [option_map].
      destruct (j =? k), (j =? i); cbn [option_map]; eexists; (split; [reflexivity|]); reflexivity.
    - destruct dbg; [right; split; reflexivity|]. left. eexists; split; [reflexivity|].
      repeat split. intros j g Hg. exists g. split; [exact Hg|reflexivity].
  Qed.

  (** pairing succeeds, or an assertion stops the program (debug builds only) *)
  Lemma safe_opposites m : well_formed L a ts m ->
    (exists m', set_opposite_halfedges L dbg a SZ m = Ok m' /\ sim m m') \/
    (dbg = true /\ set_opposite_halfedges L dbg a SZ m = Trap).
  Proof.
    intros Hwf. unfold set_opposite_halfedges, build_index. rewrite (wf_halfedge_count _ _ _ _ Hwf). fold N.
    destruct (safe_index m Hwf N (le_n _)) as (t & -> & Hp & Hne). cbn [bind].
    assert (K : forall k, k <= N -> (exists m', foldM (set_opposite1 L dbg a SZ t) (seq 0 k) m = Ok m' /\ sim m m') \/
      (dbg = true /\ foldM (set_opposite1 L dbg a SZ t) (seq 0 k) m = Trap)).
    { induction k as [|k IH]; intros Hk.
      - left. exists m. split; [reflexivity|]. repeat split. intros j g Hg. exists g. split; [exact Hg|reflexivity].
      - rewrite seq_snoc, foldM_app. destruct (IH ltac:(lia)) as [(m1 & -> & S1)|(D & ->)]; [|right; auto]. cbn.
        destruct (safe_step m1 t k (wf_sim _ _ _ _ _ Hwf S1) (Hne ltac:(lia)) Hp ltac:(lia)) as [(m2 & -> & S2)|(D & ->)].
        + left. exists m2. split; [reflexivity|]. eapply sim_trans; eauto.
        + right. auto. }
    apply K. lia.
  Qed.

  Lemma safe_built : 3 * length ts < W ->
    (exists m, built L W dbg a SZ ts = Ok m /\ well_formed L a ts m) \/ (dbg = true /\ built L W dbg a SZ ts = Trap).
  Proof.
    intros HW. destruct (add_triangles_wf L W dbg a [] empty_mesh ts (wf_empty L a) HW) as (m & E & H & _).
    rewrite (built_unfold _ _ _ _ _ _ _ E). cbn [app] in H.
    destruct (safe_opposites m H) as [(m' & -> & Hs)|(D & ->)]; [left|right; auto].
    exists m'. split; [reflexivity|]. eapply wf_sim; eauto.
  Qed.
End Safe.
