(** * Opposite halfedges and validity *)

From Coq Require Import List Arith Bool Lia Sorting.Sorted.
From Verif Require Import Scalar Linal Result ModelKdTree SpecKdTree ProofKdTree ProofKdTreeUpdate
  ModelMesh SpecMesh ProofMesh.
Import ListNotations.

Local Arguments Nat.ltb _ _ : simpl never.
Local Arguments Nat.leb _ _ : simpl never.
Local Arguments Nat.eqb _ _ : simpl never.
Local Arguments Nat.modulo _ _ : simpl never.
Local Arguments Nat.mul _ _ : simpl never.
Local Arguments vec _ _ : simpl never.

(** ** Writing a payload, seen on the elements of the tree *)
Section Elements.
  Context {S : Scalar} (n : nat) {P : Type} (SZ : nat) (f : P -> P).

  Lemma elements_update (t : @tree S n P) : forall k p v, lookup n t k = Some (p, v) ->
    exists l1 l2, elements n t = l1 ++ (p, v) :: l2 /\
      elements n (update_payload f k t) = l1 ++ (p, f v) :: l2.
  Proof.
    induction t as [|q w l IHl r IHr]; intros k p v H; [destruct k; discriminate|].
    destruct k as [|[] k]; cbn in H.
    - injection H as -> ->. exists [], (elements n l ++ elements n r). split; reflexivity.
    - destruct (IHr _ _ _ H) as (l1 & l2 & E1 & E2).
      exists ((q, w) :: elements n l ++ l1), l2. cbn. rewrite E1, E2, <- !app_assoc. split; reflexivity.
    - destruct (IHl _ _ _ H) as (l1 & l2 & E1 & E2).
      exists ((q, w) :: l1), (l2 ++ elements n r). cbn. rewrite E1, E2, <- !app_assoc. split; reflexivity.
  Qed.

  Lemma tpts_update (t : @tree S n P) k : tpts n (update_payload f k t) = tpts n t.
  Proof.
    revert k; induction t as [|q w l IHl r IHr]; intros k; [destruct k; reflexivity|].
    destruct k as [|[] k]; cbn [update_payload]; rewrite !tpts_node, ?IHl, ?IHr; reflexivity.
  Qed.

  Lemma ordered_update (t : @tree S n P) : forall k d, ordered n SZ d t -> ordered n SZ d (update_payload f k t).
  Proof.
    induction t as [|q w l IHl r IHr]; intros k d H; [destruct k; exact I|].
    destruct H as (H1 & H2 & H3 & H4).
    destruct k as [|[] k]; cbn; rewrite ?tpts_update; auto.
  Qed.
End Elements.

Section Lists.
  Lemma find_filter {A} (p q : A -> bool) l :
    find q (filter p l) = find (fun x => p x && q x) l.
  Proof.
    induction l as [|x l IH]; cbn; [reflexivity|].
    destruct (p x); cbn; [|exact IH]. destruct (q x); [reflexivity|exact IH].
  Qed.

  Lemma find_seq p n s i : find p (seq s n) = Some i ->
    s <= i < s + n /\ p i = true /\ forall j, s <= j < i -> p j = false.
  Proof.
    revert s; induction n as [|n IH]; intros s H; cbn in H; [discriminate|].
    destruct (p s) eqn:E.
    - apply Some_inj in H; subst i. split; [lia|]. split; [exact E|]. intros; lia.
    - destruct (IH _ H) as (H1 & H2 & H3). split; [lia|]. split; [exact H2|].
      intros j Hj. destruct (Nat.eq_dec j s) as [->|]; [exact E|]. apply H3; lia.
  Qed.

  Lemma find_seq_some p n s i : s <= i < s + n -> p i = true -> exists k, find p (seq s n) = Some k.
  Proof.
    intros Hi Hp. destruct (find p (seq s n)) eqn:E; [eauto|].
    eapply find_none in E; [|apply in_seq; exact Hi]. congruence.
  Qed.

  Lemma seq_snoc s n : seq s (Datatypes.S n) = seq s n ++ [s + n].
  Proof. replace (Datatypes.S n) with (n + 1) by lia. rewrite seq_app. reflexivity. Qed.
End Lists.

(** ** The directed edges of a triangle sequence *)
Section Edges.
  Context {S : Scalar}.
  Lemma edges_length (ts : list (triangle S)) : length (edges_of ts) = 3 * length ts.
  Proof.
    induction ts as [|[[p q] r] ts IH]; [reflexivity|].
    cbn [edges_of flat_map]. rewrite app_length. unfold edges_of in IH. rewrite IH. cbn; lia.
  Qed.

  Lemma edges_nth (ts : list (triangle S)) k t c : nth_error ts k = Some t -> c < 3 ->
    nth_error (edges_of ts) (3 * k + c) = Some (corner t c, corner t ((c + 1) mod 3)).
  Proof.
    revert k; induction ts as [|[[p q] r] ts IH]; intros k Hk Hc; [destruct k; discriminate|].
    destruct k as [|k].
    - cbn in Hk. apply Some_inj in Hk; subst t.
      apply mod3 in Hc as [-> |[-> | ->]]; reflexivity.
    - cbn in Hk. cbn [edges_of flat_map tri_edges].
      rewrite nth_error_app2 by (cbn; lia).
      replace (3 * Datatypes.S k + c - length [(p, q); (q, r); (r, p)]) with (3 * k + c) by (cbn; lia).
      apply IH; assumption.
  Qed.
End Edges.

(** ** Set-opposite *)
Section Opp.
  Context {S : Scalar} (L : Linal S) (W : nat) (dbg : bool) (a : addr) (SZ : nat).
  Context (G : point S -> Prop) (HG : veq_on L (G : vec S 3 -> Prop)).
  (** a query at a stored point finds it *)
  Context (HN : forall (t : @tree S 3 (list nat)) k q, ordered 3 SZ 0 t -> (forall x, In x (tpts 3 t) -> G x) ->
             In q (tpts 3 t) -> exists b, nearest SZ (mkKd t k) q = Ok b /\ b_point b = q).
  Context (ts : list (triangle S)) (HT : forall p q, In (p, q) (edges_of ts) -> G p /\ G q).

  Let N := 3 * length ts.
  Let d0 : point S * point S := (mk3 s0 s0 s0, mk3 s0 s0 s0).
  Let st (i : nat) : point S := fst (nth i (edges_of ts) d0).
  Let en (i : nat) : point S := snd (nth i (edges_of ts) d0).

  Lemma edge_at i : i < N -> nth_error (edges_of ts) i = Some (st i, en i).
  Proof.
    intros Hi. unfold st, en. rewrite <- surjective_pairing. apply nth_error_nth'.
    rewrite edges_length; exact Hi.
  Qed.

  Lemma G_st i : i < N -> G (st i).
  Proof. intros H. apply edge_at in H. apply nth_error_In in H. apply (HT _ _ H). Qed.
  Lemma G_en i : i < N -> G (en i).
  Proof. intros H. apply edge_at in H. apply nth_error_In in H. apply (HT _ _ H). Qed.

  (** everything but the opposite indices is that of a well formed mesh *)
  Lemma wf_nav m i : well_formed L a ts m -> i < N ->
    exists h nx u v, nth_error (m_halfedges m) i = Some h /\ he_index h = i /\ he_ptr h = Some a /\
      nth_error (m_vertices m) (he_vertex h) = Some u /\ v_index u = he_vertex h /\ v_ptr u = Some a /\
      nth_error (m_points m) (he_vertex h) = Some (st i) /\
      nth_error (m_halfedges m) (he_next h) = Some nx /\ he_ptr nx = Some a /\
      nth_error (m_vertices m) (he_vertex nx) = Some v /\ v_index v = he_vertex nx /\ v_ptr v = Some a /\
      nth_error (m_points m) (he_vertex nx) = Some (en i).
  Proof.
    intros Hwf Hi. unfold N in Hi.
    assert (Hc : i mod 3 < 3) by (apply Nat.mod_upper_bound; lia).
    destruct (nth_error_get ts (i / 3)) as (t & Ht); [apply Nat.div_lt_upper_bound; lia|].
    pose proof (Nat.div_mod i 3 ltac:(lia)) as Edm.
    pose proof (edges_nth ts _ t _ Ht Hc) as He. rewrite <- Edm in He.
    rewrite edge_at in He by exact Hi. injection He as Es Ee.
    assert (Hc' : (i mod 3 + 1) mod 3 < 3) by (apply Nat.mod_upper_bound; lia).
    destruct (wf_halfedge _ _ _ _ Hwf _ t _ Ht Hc) as (h & p & A1 & A2 & A3 & A4 & A5 & A6 & A7 & A8).
    destruct (wf_halfedge _ _ _ _ Hwf _ t _ Ht Hc') as (nx & q & B1 & B2 & B3 & B4 & B5 & B6 & B7 & B8).
    rewrite <- Edm in A1, A2.
    pose proof (nth_error_lt _ _ _ A7) as L1. rewrite <- (wf_vertex_count _ _ _ _ Hwf) in L1.
    pose proof (nth_error_lt _ _ _ B7) as L2. rewrite <- (wf_vertex_count _ _ _ _ Hwf) in L2.
    destruct (nth_error_get _ _ L1) as (u & Hu). destruct (nth_error_get _ _ L2) as (v & Hv).
    destruct (wf_vertex _ _ _ _ Hwf _ _ Hu) as (U1 & U2 & _).
    destruct (wf_vertex _ _ _ _ Hwf _ _ Hv) as (V1 & V2 & _).
    assert (Hall : forall p0 c, nth_error (m_points m) p0 = Some c -> G c).
    { intros p0 c H0. apply nth_error_In in H0.
      destruct (wf_points_given _ _ _ _ Hwf _ H0) as (t' & c' & Hin & Hc0 & ->).
      destruct (In_nth_error _ _ Hin) as (k' & Hk').
      pose proof (edges_nth _ _ _ _ Hk' Hc0) as HH. apply nth_error_In in HH. apply (HT _ _ HH). }
    assert (Ep : p = st i).
    { destruct A8 as [->|A8]; [congruence|]. rewrite Es. apply (HG p (corner t (i mod 3))); auto.
      - apply (Hall _ _ A7).
      - rewrite <- Es. apply G_st; exact Hi. }
    assert (Eq : q = en i).
    { destruct B8 as [->|B8]; [congruence|]. rewrite Ee. apply (HG q _); auto.
      - apply (Hall _ _ B7).
      - rewrite <- Ee. apply G_en; exact Hi. }
    subst p q.
    exists h, nx, u, v. rewrite A5. repeat (split; [assumption|]). assumption.
  Qed.

  Lemma deref_only (m : mesh S) : deref (only a m) (Some a) = Ok m.
  Proof. unfold deref, only. rewrite Nat.eqb_refl. reflexivity. Qed.

  Lemma nav_start m i h : well_formed L a ts m -> nth_error (m_halfedges m) i = Some h ->
    start_point a m h = Ok (st i).
  Proof.
    intros Hwf Hh. assert (Hi : i < N).
    { unfold N; rewrite <- (wf_halfedge_count _ _ _ _ Hwf). eapply nth_error_lt; eauto. }
    destruct (wf_nav m i Hwf Hi) as (h' & nx & u & v & A1 & A2 & A3 & A4 & A5 & A6 & A7 & _).
    rewrite Hh in A1; apply Some_inj in A1; subst h'.
    unfold start_point, getVertex, getVector. rewrite A3, deref_only. cbn [bind].
    rewrite (at_Ok _ _ _ A4). cbn [bind]. rewrite A6, deref_only. cbn [bind].
    unfold mesh_getVector. rewrite A5. apply at_Ok; assumption.
  Qed.

  Lemma nav_end m i h : well_formed L a ts m -> nth_error (m_halfedges m) i = Some h ->
    end_point a m h = Ok (en i).
  Proof.
    intros Hwf Hh. assert (Hi : i < N).
    { unfold N; rewrite <- (wf_halfedge_count _ _ _ _ Hwf). eapply nth_error_lt; eauto. }
    destruct (wf_nav m i Hwf Hi) as (h' & nx & u & v & A1 & A2 & A3 & A4 & A5 & A6 & A7 & B1 & B2 & B3 & B4 & B5 & B6).
    rewrite Hh in A1; apply Some_inj in A1; subst h'.
    unfold end_point, getNextVertex, getNext, getVertex, getVector. rewrite A3, deref_only. cbn [bind].
    rewrite (at_Ok _ _ _ B1). cbn [bind]. rewrite B2, deref_only. cbn [bind].
    rewrite (at_Ok _ _ _ B3). cbn [bind]. rewrite B5, deref_only. cbn [bind].
    unfold mesh_getVector. rewrite B4. apply at_Ok; assumption.
  Qed.

  (** *** the index of halfedges by start point *)
  Definition bucket (k : nat) (p : point S) : list nat := filter (fun j => veq L (st j) p) (seq 0 k).

  Record index_ok (k : nat) (t : kdtree S 3 (list nat)) : Prop := mkIdx {
    x_ord : ordered 3 SZ 0 (root t);
    x_nodup : NoDup (tpts 3 (root t));
    x_pts : forall p, In p (tpts 3 (root t)) <-> exists j, j < k /\ st j = p;
    x_pay : forall p l, In (p, l) (elements 3 (root t)) -> l = bucket k p }.

  Lemma index_G k t : k <= N -> index_ok k t -> forall x, In x (tpts 3 (root t)) -> G x.
  Proof. intros Hk Hx x Hin. apply (x_pts _ _ Hx) in Hin as (j & Hj & <-). apply G_st; lia. Qed.

  Lemma bucket_S k p : bucket (Datatypes.S k) p = bucket k p ++ (if veq L (st k) p then [k] else []).
  Proof. unfold bucket. rewrite seq_snoc, filter_app. cbn. reflexivity. Qed.

  Lemma index_step m t k : well_formed L a ts m -> k < N -> index_ok k t ->
    exists t', index_halfedge L a SZ m t k = Ok t' /\ index_ok (Datatypes.S k) t'.
  Proof.
    intros Hwf Hk Hx. unfold index_halfedge.
    destruct (nth_error_get (m_halfedges m) k) as (h & Hh); [rewrite (wf_halfedge_count _ _ _ _ Hwf); exact Hk|].
    rewrite (at_Ok _ _ _ Hh). cbn [bind]. rewrite (nav_start m k h Hwf Hh). cbn [bind].
    pose proof (index_G k t ltac:(lia) Hx) as HGt.
    unfold search. pose proof (search_iff L 3 SZ (fun p => G p) HG (root t) 0 (st k) (x_ord _ _ Hx) HGt (G_st k Hk)) as Hs.
    destruct (searchHelper L 3 SZ (root t) (st k) 0) eqn:Es.
    - destruct (HN (root t) (msize t) (st k) (x_ord _ _ Hx) HGt (proj1 Hs eq_refl)) as (b & Eb & Hb).
      replace (mkKd (root t) (msize t)) with t in Eb by (destruct t; reflexivity).
      rewrite Eb. cbn [bind]. eexists; split; [reflexivity|].
      assert (Hlk : lookup 3 (root t) (b_path b) = Some (st k, b_payload b)).
      { unfold nearest in Eb. destruct (root t) as [|p v l r] eqn:Er; [discriminate|].
        apply Ok_inj in Eb.
        pose proof (nearest_lookup 3 SZ (Node p v l r) [] (st k) (mkBest [] p v (kd_distance (st k) p)) 0 (Node p v l r)
                      (fun _ => eq_refl) eq_refl) as Hl. cbn zeta in Hl. rewrite Eb in Hl. rewrite Hb in Hl. exact Hl. }
      destruct (elements_update 3 (fun l => l ++ [k]) (root t) _ _ _ Hlk) as (l1 & l2 & E1 & E2).
      split; cbn [root].
      + apply ordered_update, Hx.
      + rewrite tpts_update; apply Hx.
      + intros p. rewrite tpts_update, (x_pts _ _ Hx). split; intros (j & Hj & Ej).
        * exists j; split; [lia|exact Ej].
        * destruct (Nat.eq_dec j k) as [->|Hne]; [|exists j; split; [lia|exact Ej]].
          subst p. apply (x_pts _ _ Hx). apply Hs; reflexivity.
      + intros p l Hin. rewrite E2 in Hin. rewrite bucket_S.
        pose proof (x_nodup _ _ Hx) as Hnd. unfold tpts in Hnd. rewrite E1, map_app in Hnd. cbn [map fst] in Hnd.
        apply in_app_or in Hin as [Hin|[Hin|Hin]].
        * assert (l = bucket k p) as -> by (apply (x_pay _ _ Hx); rewrite E1; apply in_or_app; auto).
          destruct (veq L (st k) p) eqn:Ev; [|rewrite app_nil_r; reflexivity].
          exfalso. assert (G p). { apply HGt. unfold tpts. rewrite E1, map_app. apply in_or_app; left. apply (in_map fst _ _ Hin). }
          apply HG in Ev; auto using G_st. subst p.
          apply NoDup_remove_2 in Hnd. apply Hnd. apply in_or_app; left. apply (in_map fst _ _ Hin).
        * injection Hin as <- <-.
          assert (Eq : b_payload b = bucket k (st k)) by (apply (x_pay _ _ Hx); rewrite E1; apply in_or_app; right; left; reflexivity).
          rewrite Eq. assert (Hv : veq L (st k) (st k) = true) by (apply HG; auto using G_st).
          rewrite Hv. reflexivity.
        * assert (l = bucket k p) as -> by (apply (x_pay _ _ Hx); rewrite E1; apply in_or_app; right; right; auto).
          destruct (veq L (st k) p) eqn:Ev; [|rewrite app_nil_r; reflexivity].
          exfalso. assert (G p). { apply HGt. unfold tpts. rewrite E1, map_app. apply in_or_app; right; right. apply (in_map fst _ _ Hin). }
          apply HG in Ev; auto using G_st. subst p.
          apply NoDup_remove_2 in Hnd. apply Hnd. apply in_or_app; right. apply (in_map fst _ _ Hin).
    - unfold insert. destruct (insertHelper L 3 SZ (root t) (st k) [k] 0) as [r b] eqn:Ei. cbn [fst].
      destruct (insert_spec L 3 SZ (fun p => G p) HG (root t) 0 (st k) [k] r b (x_ord _ _ Hx) HGt (G_st k Hk) Ei)
        as (Ho & [(-> & Hni & Hperm)|(-> & Hin & _)]).
      2:{ apply Hs in Hin; discriminate. }
      assert (Hpp : Permutation.Permutation (tpts 3 r) (st k :: tpts 3 (root t))).
      { unfold tpts. apply (Permutation.Permutation_map fst) in Hperm. exact Hperm. }
      eexists; split; [reflexivity|]. split; cbn [root].
      + exact Ho.
      + eapply Permutation.Permutation_NoDup; [apply Permutation.Permutation_sym; exact Hpp|].
        constructor; [exact Hni|apply Hx].
      + intros p. split.
        * intros Hin. apply (Permutation.Permutation_in _ Hpp) in Hin as [<-|Hin].
          -- exists k; split; [lia|reflexivity].
          -- apply (x_pts _ _ Hx) in Hin as (j & Hj & Ej). exists j; split; [lia|exact Ej].
        * intros (j & Hj & Ej). apply (Permutation.Permutation_in _ (Permutation.Permutation_sym Hpp)).
          destruct (Nat.eq_dec j k) as [->|Hne]; [left; exact Ej|]. right. apply (x_pts _ _ Hx). exists j; split; [lia|exact Ej].
      + intros p l Hin. rewrite bucket_S. apply (Permutation.Permutation_in _ Hperm) in Hin as [Hin|Hin].
        * injection Hin as <- <-.
          assert (Hv : veq L (st k) (st k) = true) by (apply HG; auto using G_st).
          rewrite Hv. replace (bucket k (st k)) with (@nil nat); [reflexivity|].
          symmetry. unfold bucket.
          assert (Hno : forall j, In j (seq 0 k) -> veq L (st j) (st k) = false).
          { intros j Hj. apply in_seq in Hj. apply not_true_is_false. intros Ev.
            apply HG in Ev; [|apply G_st; lia|apply G_st; lia].
            apply Hni. apply (x_pts _ _ Hx). exists j; split; [lia|exact Ev]. }
          clear -Hno. induction (seq 0 k) as [|x l IH]; cbn; [reflexivity|].
          rewrite (Hno x (or_introl eq_refl)). apply IH. intros; apply Hno; right; assumption.
        * assert (l = bucket k p) as -> by (apply (x_pay _ _ Hx); exact Hin).
          destruct (veq L (st k) p) eqn:Ev; [|rewrite app_nil_r; reflexivity].
          exfalso. assert (Hp : In p (tpts 3 (root t))) by (unfold tpts; apply (in_map fst _ _ Hin)).
          assert (G p) by (apply HGt; exact Hp).
          apply HG in Ev; auto using G_st. subst p. contradiction.
  Qed.

  Lemma build_index_ok m : well_formed L a ts m ->
    exists t, build_index L a SZ m = Ok t /\ index_ok N t.
  Proof.
    intros Hwf. unfold build_index. rewrite (wf_halfedge_count _ _ _ _ Hwf). fold N.
    assert (Gk : forall k, k <= N -> exists t, foldM (index_halfedge L a SZ m) (seq 0 k) kd_empty = Ok t /\ index_ok k t).
    { induction k as [|k IH]; intros Hk.
      - eexists; split; [reflexivity|]. split; cbn; auto.
        + constructor.
        + intros p; split; [intros []|intros (j & Hj & _); lia].
        + intros p l [].
      - destruct (IH ltac:(lia)) as (t & E & Hx).
        destruct (index_step m t k Hwf ltac:(lia) Hx) as (t' & E' & Hx').
        exists t'; split; [|exact Hx'].
        rewrite seq_snoc, foldM_app, E. cbn. rewrite E'. reflexivity. }
    apply Gk; lia.
  Qed.

  (** *** the second loop *)
  Definition same (i j : nat) : bool := veq L (st j) (st i) && veq L (en j) (en i).

  Lemma same_iff i j : i < N -> j < N -> (same i j = true <-> nth_error (edges_of ts) j = nth_error (edges_of ts) i).
  Proof.
    intros Hi Hj. rewrite (edge_at i Hi), (edge_at j Hj). unfold same. rewrite andb_true_iff.
    rewrite (HG (st j) (st i) (G_st _ Hj) (G_st _ Hi)), (HG (en j) (en i) (G_en _ Hj) (G_en _ Hi)).
    split; [intros [-> ->]; reflexivity|]. intros H; injection H; auto.
  Qed.

  Lemma find_candidate_ok m start l : well_formed L a ts m -> (forall k, In k l -> k < N) ->
    find_candidate L a m start l = Ok (find (fun k => veq L (en k) start) l).
  Proof.
    intros Hwf. induction l as [|k l IH]; intros Hl; [reflexivity|]. cbn [find_candidate find].
    destruct (nth_error_get (m_halfedges m) k) as (h & Hh).
    { rewrite (wf_halfedge_count _ _ _ _ Hwf). apply Hl; left; reflexivity. }
    rewrite (at_Ok _ _ _ Hh). cbn [bind]. rewrite (nav_end m k h Hwf Hh). cbn [bind].
    destruct (veq L (en k) start); [reflexivity|]. apply IH. intros; apply Hl; right; assumption.
  Qed.

  (** the first halfedge with the same directed edge *)
  Definition first_same (i : nat) : nat :=
    match find (same i) (seq 0 N) with Some k => k | None => i end.

  Lemma same_refl i : i < N -> same i i = true.
  Proof. intros; apply same_iff; auto. Qed.

  Lemma first_same_spec i : i < N ->
    first_same i <= i /\ same i (first_same i) = true /\ find (same i) (seq 0 N) = Some (first_same i) /\
    forall j, j < N -> same i j = true -> first_same i <= j.
  Proof.
    intros Hi. unfold first_same. destruct (find_seq_some (same i) N 0 i ltac:(lia) (same_refl i Hi)) as (k & Hk).
    rewrite Hk. destruct (find_seq _ _ _ _ Hk) as (H1 & H2 & H3). repeat split; auto.
    - destruct (Nat.le_gt_cases k i) as [|Hgt]; auto. exfalso.
      pose proof (same_refl i Hi). rewrite (H3 i ltac:(lia)) in H. discriminate.
    - intros j Hj Hs. destruct (Nat.le_gt_cases k j) as [|Hgt]; auto. rewrite (H3 j ltac:(lia)) in Hs. discriminate.
  Qed.

  (** meshes that agree up to the opposite indices *)
  Definition he_sim (g h : halfedge) : Prop := set_opp 0 g = set_opp 0 h.
  Definition sim (m m' : mesh S) : Prop :=
    m_vertices m' = m_vertices m /\ m_facets m' = m_facets m /\ m_points m' = m_points m /\
    length (m_halfedges m') = length (m_halfedges m) /\
    forall i h, nth_error (m_halfedges m) i = Some h ->
      exists h', nth_error (m_halfedges m') i = Some h' /\ he_sim h h'.

  Lemma sim_trans m1 m2 m3 : sim m1 m2 -> sim m2 m3 -> sim m1 m3.
  Proof.
    intros (A1 & A2 & A3 & A4 & A5) (B1 & B2 & B3 & B4 & B5). repeat split; try congruence.
    intros i h Hh. destruct (A5 _ _ Hh) as (h' & Hh' & E). destruct (B5 _ _ Hh') as (h'' & Hh'' & E').
    exists h''; split; auto. unfold he_sim in *; congruence.
  Qed.

  Lemma wf_sim m m' : well_formed L a ts m -> sim m m' -> well_formed L a ts m'.
  Proof.
    intros [H1 H2 H3 H4 H5 H6 H7 H8] (A1 & A2 & A3 & A4 & A5).
    split; rewrite ?A1, ?A2, ?A3, ?A4; auto.
    - intros k t c Ht Hc. destruct (H5 k t c Ht Hc) as (h & p & B1 & B2 & B3 & B4 & B5 & B6 & B7 & B8).
      destruct (A5 _ _ B1) as (h' & Hh' & E). exists h', p.
      unfold he_sim, set_opp in E. injection E as E1 E2 E3 E4 E5 E6.
      rewrite <- E1, <- E2, <- E3, <- E4, <- E5, <- E6. repeat (split; [assumption|]). assumption.
    - intros v x Hx. destruct (H6 v x Hx) as (B1 & B2 & B3 & B4 & B5).
      repeat (split; [assumption|]). intros i. rewrite B5. split; intros (h & Hh & Hv).
      + destruct (A5 _ _ Hh) as (h' & Hh' & E). exists h'; split; auto.
        unfold he_sim, set_opp in E. injection E as E1 E2 E3 E4 E5 E6. congruence.
      + destruct (nth_error_get (m_halfedges m) i) as (g & Hg); [rewrite <- A4; eapply nth_error_lt; eauto|].
        destruct (A5 _ _ Hg) as (h' & Hh' & E). exists g; split; auto.
        unfold he_sim, set_opp in E. injection E as E1 E2 E3 E4 E5 E6. congruence.
  Qed.

  Lemma wf_index m i h : well_formed L a ts m -> nth_error (m_halfedges m) i = Some h -> he_index h = i.
  Proof.
    intros Hwf Hh.
    assert (Hi : i < N) by (unfold N; rewrite <- (wf_halfedge_count _ _ _ _ Hwf); eapply nth_error_lt; eauto).
    destruct (wf_nav m i Hwf Hi) as (h' & nx & u & v & A1 & A2 & _). congruence.
  Qed.

  Lemma opp_step m t i : well_formed L a ts m -> index_ok N t -> i < N ->
    exists m', set_opposite1 L dbg a SZ t m i = Ok m' /\ sim m m' /\
      forall j h, nth_error (m_halfedges m') j = Some h ->
        he_opp h = (if j =? first_same i then i else if j =? i then first_same i
                    else match nth_error (m_halfedges m) j with Some g => he_opp g | None => 0 end).
  Proof.
    intros Hwf Hx Hi. unfold set_opposite1.
    destruct (nth_error_get (m_halfedges m) i) as (h & Hh); [rewrite (wf_halfedge_count _ _ _ _ Hwf); exact Hi|].
    rewrite (at_Ok _ _ _ Hh). cbn [bind].
    rewrite (nav_end m i h Hwf Hh), (nav_start m i h Hwf Hh). cbn [bind].
    pose proof (index_G N t (le_n _) Hx) as HGt.
    assert (Hin : In (st i) (tpts 3 (root t))) by (apply (x_pts _ _ Hx); eauto).
    destruct (HN (root t) (msize t) (st i) (x_ord _ _ Hx) HGt Hin) as (b & Eb & Hb).
    replace (mkKd (root t) (msize t)) with t in Eb by (destruct t; reflexivity).
    rewrite Eb. cbn [bind].
    assert (Hpay : b_payload b = bucket N (st i)).
    { apply (x_pay _ _ Hx). unfold nearest in Eb. destruct (root t) as [|p v l r] eqn:Er; [discriminate|].
      apply Ok_inj in Eb. cbn zeta.
      pose proof (nearest_from 3 SZ (Node p v l r) [] (st i) (mkBest [] p v (kd_distance (st i) p)) 0) as Hf.
      cbn zeta in Hf. rewrite Eb in Hf. rewrite <- Hb.
      destruct Hf as [Hf|[Hf _]]; [|exact Hf]. rewrite Hf. left; reflexivity. }
    rewrite Hpay. rewrite (find_candidate_ok m (en i) _ Hwf).
    2:{ intros k Hk. apply filter_In in Hk as [Hk _]. apply in_seq in Hk. lia. }
    cbn [bind]. unfold bucket. rewrite find_filter.
    destruct (first_same_spec i Hi) as (F1 & F2 & F3 & F4).
    unfold same in F3 at 1. rewrite F3.
    destruct (nth_error_get (m_halfedges m) (first_same i)) as (c & Hc); [rewrite (wf_halfedge_count _ _ _ _ Hwf); fold N; lia|].
    rewrite (at_Ok _ _ _ Hc). cbn [bind].
    rewrite (wf_index m _ _ Hwf Hc), (wf_index m _ _ Hwf Hh).
    destruct (upd_Ok (m_halfedges m) i (set_opp (first_same i))) as (h1 & U1 & Ul1 & Un1); [eapply nth_error_lt; eauto|].
    rewrite U1. cbn [bind].
    destruct (upd_Ok h1 (first_same i) (set_opp i)) as (h2 & U2 & Ul2 & Un2); [rewrite Ul1; eapply nth_error_lt; eauto|].
    rewrite U2. cbn [bind]. rewrite geo_assert_true by reflexivity. cbn [bind].
    eexists; split; [reflexivity|]. split.
    - repeat split; cbn; try congruence.
      intros j g Hg. rewrite Un2, Un1, Hg. cbn [option_map].
      destruct (j =? first_same i), (j =? i); cbn [option_map]; eexists; (split; [reflexivity|]); reflexivity.
    - cbn [with_halfedges m_halfedges]. intros j g Hg. rewrite Un2, Un1 in Hg.
      destruct (nth_error (m_halfedges m) j) as [g0|] eqn:Eg.
      + destruct (j =? first_same i), (j =? i); cbn [option_map] in Hg; apply Some_inj in Hg; subst g; reflexivity.
      + destruct (j =? first_same i), (j =? i); cbn [option_map] in Hg; discriminate.
  Qed.

  (** the result of the pairing: the first halfedge of a class gets the last one
      of the class that was processed, all others get the first *)
  Definition opp_after (k : nat) (m m' : mesh S) : Prop :=
    forall j h, nth_error (m_halfedges m') j = Some h ->
      (k <= j -> match nth_error (m_halfedges m) j with Some g => he_opp h = he_opp g | None => False end) /\
      (j < k -> first_same j <> j -> he_opp h = first_same j) /\
      (j < k -> first_same j = j -> he_opp h < k /\ same j (he_opp h) = true /\
         forall i, i < k -> same j i = true -> i <= he_opp h).

  Lemma same_sym i j : i < N -> j < N -> same i j = true -> same j i = true.
  Proof. intros Hi Hj H. apply same_iff; auto. symmetry; apply same_iff; auto. Qed.
  Lemma same_trans i j k : i < N -> j < N -> k < N -> same i j = true -> same j k = true -> same i k = true.
  Proof. intros Hi Hj Hk H1 H2. apply same_iff; auto. apply same_iff in H1, H2; auto. congruence. Qed.

  Lemma first_same_eq i j : i < N -> j < N -> same i j = true -> first_same i = first_same j.
  Proof.
    intros Hi Hj Hs.
    destruct (first_same_spec i Hi) as (A1 & A2 & _ & A4), (first_same_spec j Hj) as (B1 & B2 & _ & B4).
    apply Nat.le_antisymm.
    - apply A4; [lia|]. eapply (same_trans i j); eauto; lia.
    - apply B4; [lia|]. eapply (same_trans j i); eauto; try lia. apply same_sym; auto.
  Qed.

  Lemma opp_loop m t : well_formed L a ts m -> index_ok N t -> forall k, k <= N ->
    exists m', foldM (set_opposite1 L dbg a SZ t) (seq 0 k) m = Ok m' /\ sim m m' /\ opp_after k m m'.
  Proof.
    intros Hwf Hx. induction k as [|k IH]; intros Hk.
    - exists m; split; [reflexivity|]. split.
      + repeat split. intros i h Hh; exists h; split; [exact Hh|reflexivity].
      + intros j h Hh. rewrite Hh. repeat split; intros; lia.
    - destruct (IH ltac:(lia)) as (m1 & E1 & S1 & O1).
      destruct (opp_step m1 t k (wf_sim _ _ Hwf S1) Hx ltac:(lia)) as (m2 & E2 & S2 & O2).
      exists m2; split; [rewrite seq_snoc, foldM_app, E1; cbn; rewrite E2; reflexivity|].
      split; [eapply sim_trans; eauto|].
      destruct (first_same_spec k ltac:(lia)) as (F1 & F2 & _ & F4).
      intros j h Hh. pose proof (O2 j h Hh) as Ho.
      destruct (nth_error_get (m_halfedges m1) j) as (g & Hg).
      { destruct S2 as (_ & _ & _ & Hl & _). rewrite <- Hl. eapply nth_error_lt; eauto. }
      assert (HjN : j < N).
      { unfold N; rewrite <- (wf_halfedge_count _ _ _ _ (wf_sim _ _ Hwf S1)). eapply nth_error_lt; eauto. }
      rewrite Hg in Ho. destruct (O1 j g Hg) as (P1 & P2 & P3).
      split; [|split].
      + intros Hj. destruct (Nat.eqb_spec j (first_same k)); [lia|]. destruct (Nat.eqb_spec j k); [lia|].
        rewrite Ho. apply P1. lia.
      + intros Hj Hne. destruct (Nat.eqb_spec j (first_same k)) as [Ej|_].
        * exfalso. apply Hne. rewrite Ej at 1. rewrite Ej.
          symmetry. apply first_same_eq; try lia. exact F2.
        * destruct (Nat.eqb_spec j k) as [->|Hjk]; [exact Ho|]. rewrite Ho. apply P2; [lia|exact Hne].
      + intros Hj He. destruct (Nat.eqb_spec j (first_same k)) as [Ej|Hnj].
        * rewrite Ho. split; [lia|]. split.
          -- rewrite Ej. apply same_sym; try lia. exact F2.
          -- intros i Hi _. lia.
        * destruct (Nat.eqb_spec j k) as [->|Hjk]; [congruence|]. rewrite Ho.
          destruct (P3 ltac:(lia) He) as (Q1 & Q2 & Q3). split; [lia|]. split; [exact Q2|].
          intros i Hi Hs. destruct (Nat.eq_dec i k) as [->|]; [|apply Q3; auto; lia].
          exfalso. apply Hnj. rewrite <- He. apply first_same_eq; auto; lia.
  Qed.

  (** *** result *)
  Lemma set_opposite_ok m : well_formed L a ts m ->
    exists m', set_opposite_halfedges L dbg a SZ m = Ok m' /\ well_formed L a ts m' /\ sim m m' /\
      forall i h, nth_error (m_halfedges m') i = Some h ->
        exists f l, f <= i <= l /\ l < N /\
          nth_error (edges_of ts) f = nth_error (edges_of ts) i /\
          nth_error (edges_of ts) l = nth_error (edges_of ts) i /\
          (forall j, j < N -> nth_error (edges_of ts) j = nth_error (edges_of ts) i -> f <= j <= l) /\
          he_opp h = if i =? f then l else f.
  Proof.
    intros Hwf. unfold set_opposite_halfedges.
    destruct (build_index_ok m Hwf) as (t & Et & Hx). rewrite Et. cbn [bind].
    rewrite (wf_halfedge_count _ _ _ _ Hwf). fold N.
    destruct (opp_loop m t Hwf Hx N (le_n _)) as (m' & E & Hs & Ho).
    exists m'; split; [exact E|]. split; [eapply wf_sim; eauto|]. split; [exact Hs|].
    intros i h Hh.
    assert (Hi : i < N).
    { unfold N; rewrite <- (wf_halfedge_count _ _ _ _ (wf_sim _ _ Hwf Hs)). eapply nth_error_lt; eauto. }
    destruct (first_same_spec i Hi) as (F1 & F2 & _ & F4).
    destruct (Ho i h Hh) as (_ & O2 & O3).
    (* the last member of the class: the opposite of its first one *)
    set (f := first_same i) in *.
    assert (Hf : f < N) by lia.
    assert (Hff : first_same f = f) by (symmetry; apply first_same_eq; auto).
    destruct (nth_error_get (m_halfedges m') f) as (hf & Hhf).
    { rewrite (wf_halfedge_count _ _ _ _ (wf_sim _ _ Hwf Hs)). exact Hf. }
    destruct (Ho f hf Hhf) as (_ & _ & O3f). destruct (O3f Hf Hff) as (Q1 & Q2 & Q3).
    exists f, (he_opp hf).
    assert (Hsfi : same f i = true) by (apply same_sym; auto).
    split; [split; [lia|apply Q3; auto]|]. split; [exact Q1|].
    split; [apply same_iff; auto|].
    split. { apply same_iff in Q2; auto. apply same_iff in F2; auto. congruence. }
    split.
    { intros j Hj Ej. assert (Hij : same i j = true) by (apply same_iff; auto).
      split; [apply F4; auto|]. apply Q3; auto. eapply (same_trans f i); eauto. }
    destruct (Nat.eqb_spec i f) as [Eif|Hne].
    - assert (hf = h) by (rewrite <- Eif in Hhf; congruence). congruence.
    - apply O2; auto.
  Qed.
End Opp.
