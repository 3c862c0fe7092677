(** * Validity of meshes, traversals and index extraction *)

From Coq Require Import List Arith Bool Lia Sorting.Sorted.
From Verif Require Import Scalar Linal Result ModelKdTree SpecKdTree ProofKdTree ProofKdTreeUpdate
  ModelMesh SpecMesh ProofMesh ProofMeshOpp.
Import ListNotations.

Local Arguments Nat.ltb _ _ : simpl never.
Local Arguments Nat.leb _ _ : simpl never.
Local Arguments Nat.eqb _ _ : simpl never.
Local Arguments Nat.modulo _ _ : simpl never.
Local Arguments Nat.mul _ _ : simpl never.
Local Arguments vec _ _ : simpl never.

Section Lists.
  Lemma mapM_Forall2 {A B} (f : A -> res B) l r : Forall2 (fun x y => f x = Ok y) l r -> mapM f l = Ok r.
  Proof. induction 1 as [|x y l r E _ IH]; cbn; [reflexivity|]. rewrite E. cbn. rewrite IH. reflexivity. Qed.

  Lemma mapM_inv {A B} (f : A -> res B) l r : mapM f l = Ok r -> Forall2 (fun x y => f x = Ok y) l r.
  Proof.
    revert r; induction l as [|x l IH]; intros r H; cbn in H.
    - apply Ok_inj in H; subst; constructor.
    - destruct (f x) as [y| | | |] eqn:E; try discriminate. cbn in H.
      destruct (mapM f l) as [ys| | | |] eqn:El; try discriminate. cbn in H. apply Ok_inj in H; subst r.
      constructor; auto.
  Qed.

  Lemma Forall2_nth {A B} (P : A -> B -> Prop) l r :
    length l = length r ->
    (forall i x y, nth_error l i = Some x -> nth_error r i = Some y -> P x y) -> Forall2 P l r.
  Proof.
    revert r; induction l as [|x l IH]; intros [|y r] Hl H; try discriminate; constructor.
    - apply (H 0 x y); reflexivity.
    - apply IH; [cbn in Hl; lia|]. intros i x' y' H1 H2. apply (H (Datatypes.S i)); assumption.
  Qed.

  (** a list of 3n elements is the concatenation of its triples *)
  Lemma triples {A} (d : A) n : forall l, length l = 3 * n ->
    concat (map (fun k => [nth (3 * k) l d; nth (3 * k + 1) l d; nth (3 * k + 2) l d]) (seq 0 n)) = l.
  Proof.
    induction n as [|n IH]; intros l Hl.
    - destruct l; [reflexivity|discriminate].
    - destruct l as [|x [|y [|z l]]]; cbn [length] in Hl; try lia.
      cbn [seq map concat]. rewrite <- seq_shift, map_map.
      transitivity ([x; y; z] ++ l); [|reflexivity]. f_equal.
      etransitivity; [|apply (IH l); lia]. f_equal. apply map_ext_in. intros k _.
      replace (3 * Datatypes.S k) with (Datatypes.S (Datatypes.S (Datatypes.S (3 * k)))) by lia.
      replace (Datatypes.S (Datatypes.S (Datatypes.S (3 * k))) + 1) with (Datatypes.S (Datatypes.S (Datatypes.S (3 * k + 1)))) by lia.
      replace (Datatypes.S (Datatypes.S (Datatypes.S (3 * k))) + 2) with (Datatypes.S (Datatypes.S (Datatypes.S (3 * k + 2)))) by lia.
      reflexivity.
  Qed.
End Lists.

Section Mesh.
  Context {S : Scalar} (L : Linal S) (W : nat) (dbg : bool) (a : addr).
  Context (ts : list (triangle S)) (m : mesh S) (Hwf : well_formed L a ts m).
  Let N := 3 * length ts.

  Lemma he_nav i : i < N ->
    exists h nx pv u, nth_error (m_halfedges m) i = Some h /\ he_index h = i /\ he_ptr h = Some a /\
      he_facet h = i / 3 /\ he_facet h < length (m_facets m) /\
      nth_error (m_vertices m) (he_vertex h) = Some u /\ v_index u = he_vertex h /\ v_ptr u = Some a /\
      In i (v_hes u) /\
      he_next h < N /\ nth_error (m_halfedges m) (he_next h) = Some nx /\ he_prev nx = i /\
      he_prev h < N /\ nth_error (m_halfedges m) (he_prev h) = Some pv /\ he_next pv = i /\
      he_vertex h < length (m_points m).
  Proof.
    intros Hi. unfold N in Hi.
    assert (Hc : i mod 3 < 3) by (apply Nat.mod_upper_bound; lia).
    assert (Hk : i / 3 < length ts) by (apply Nat.div_lt_upper_bound; lia).
    destruct (nth_error_get ts (i / 3) Hk) as (t & Ht).
    pose proof (Nat.div_mod i 3 ltac:(lia)) as Edm.
    destruct (wf_halfedge _ _ _ _ Hwf _ t _ Ht Hc) as (h & p & A1 & A2 & A3 & A4 & A5 & A6 & A7 & A8).
    rewrite <- Edm in A1, A2.
    assert (Hcn : (i mod 3 + 1) mod 3 < 3) by (apply Nat.mod_upper_bound; lia).
    assert (Hcp : (i mod 3 + 2) mod 3 < 3) by (apply Nat.mod_upper_bound; lia).
    destruct (wf_halfedge _ _ _ _ Hwf _ t _ Ht Hcn) as (nx & pn & B1 & B2 & B3 & B4 & B5 & B6 & B7 & B8).
    destruct (wf_halfedge _ _ _ _ Hwf _ t _ Ht Hcp) as (pv & pp & C1 & C2 & C3 & C4 & C5 & C6 & C7 & C8).
    pose proof (nth_error_lt _ _ _ A7) as L1.
    pose proof L1 as L1'. rewrite <- (wf_vertex_count _ _ _ _ Hwf) in L1'.
    destruct (nth_error_get _ _ L1') as (u & Hu).
    destruct (wf_vertex _ _ _ _ Hwf _ _ Hu) as (U1 & U2 & _ & _ & U3).
    assert (Em : ((i mod 3 + 1) mod 3 + 2) mod 3 = i mod 3).
    { destruct (mod3 _ Hc) as [E|[E|E]]; rewrite E; reflexivity. }
    assert (Em' : ((i mod 3 + 2) mod 3 + 1) mod 3 = i mod 3).
    { destruct (mod3 _ Hc) as [E|[E|E]]; rewrite E; reflexivity. }
    exists h, nx, pv, u. rewrite A5, A6, B6, C5, Em, Em', <- Edm, A3.
    repeat (split; [try assumption; try reflexivity|]).
    - rewrite (wf_facet_count _ _ _ _ Hwf). exact Hk.
    - apply U3. exists h; auto.
    - unfold N; lia.
    - unfold N; lia.
    - exact L1.
  Qed.

  Lemma he_lt i h : nth_error (m_halfedges m) i = Some h -> i < N.
  Proof. intros H. unfold N; rewrite <- (wf_halfedge_count _ _ _ _ Hwf). eapply nth_error_lt; eauto. Qed.

  (** ** Validity *)
  Lemma all_valid_true {A} (p : A -> res bool) l : (forall x, In x l -> p x = Ok true) -> all_valid p l = Ok true.
  Proof.
    induction l as [|x l IH]; intros H; cbn; [reflexivity|].
    rewrite (H x) by (left; reflexivity). cbn. apply IH. intros; apply H; right; assumption.
  Qed.

  Context (HW : N < W).

  Lemma idx_ok i : i < N -> idx_valid W i = true.
  Proof. intros; unfold idx_valid. destruct (Nat.eqb_spec i (W - 1)); [lia|reflexivity]. Qed.

  Lemma vertices_valid : all_valid (vertex_is_valid W dbg) (m_vertices m) = Ok true.
  Proof.
    apply all_valid_true. intros x Hx. apply In_nth_error in Hx as (v & Hv).
    destruct (wf_vertex _ _ _ _ Hwf _ _ Hv) as (U1 & U2 & U4 & U5 & U3).
    unfold vertex_is_valid. rewrite U2, (StronglySorted_is_sorted _ U5), U1.
    assert (E1 : idx_valid W v = true).
    { apply nth_error_lt in Hv. rewrite (wf_vertex_count _ _ _ _ Hwf) in Hv.
      pose proof (wf_size L a ts m Hwf). apply idx_ok. unfold N; lia. }
    assert (E2 : forallb (idx_valid W) (v_hes x) = true).
    { apply forallb_forall. intros i Hi. apply U3 in Hi as (h & Hh & _). apply idx_ok. eapply he_lt; eauto. }
    rewrite E1, E2. cbn. rewrite geo_assert_true by reflexivity. reflexivity.
  Qed.

  Lemma facets_valid : all_valid (facet_is_valid W dbg) (m_facets m) = Ok true.
  Proof.
    apply all_valid_true. intros x Hx. apply In_nth_error in Hx as (k & Hk).
    destruct (wf_facet _ _ _ _ Hwf _ _ Hk) as (U1 & U2).
    unfold facet_is_valid. rewrite U1, U2. apply nth_error_lt in Hk. rewrite (wf_facet_count _ _ _ _ Hwf) in Hk.
    rewrite idx_ok by (unfold N; lia). cbn. rewrite geo_assert_true by reflexivity. reflexivity.
  Qed.

  (** the only thing about a halfedge that is not implied by the construction *)
  Definition opp_back (h : halfedge) : bool :=
    match nth_error (m_halfedges m) (he_opp h) with Some o => he_opp o =? he_index h | None => false end.

  Lemma halfedge_valid_impl i h : nth_error (m_halfedges m) i = Some h -> he_opp h < N ->
    halfedge_is_valid_impl W (only a m) h = Ok (opp_back h).
  Proof.
    intros Hh Ho. pose proof (he_lt _ _ Hh) as Hi.
    destruct (he_nav i Hi) as (h' & nx & pv & u & A1 & A2 & A3 & A4 & A5 & A6 & A7 & A8 & A9 & A10 & A11 & A12 & A13 & A14 & A15 & A16).
    rewrite Hh in A1; apply Some_inj in A1; subst h'.
    unfold halfedge_is_valid_impl. rewrite A2, A3.
    rewrite (idx_ok i Hi), (idx_ok _ A10), (idx_ok _ A13), (idx_ok _ Ho).
    rewrite (idx_ok (he_facet h)) by (rewrite (wf_facet_count _ _ _ _ Hwf) in A5; unfold N; lia).
    rewrite (idx_ok (he_vertex h)) by (pose proof (wf_size L a ts m Hwf); unfold N; lia).
    cbn [negb andb not_null]. unfold getVertex, getOpposite, getNext, getPrevious. rewrite A3, deref_only. cbn [bind].
    rewrite (at_Ok _ _ _ A6). cbn [bind].
    assert (E : existsb (fun k => k =? i) (v_hes u) = true).
    { apply existsb_exists. exists i. split; [exact A9|apply Nat.eqb_refl]. }
    rewrite E. cbn [negb]. unfold opp_back. rewrite A2.
    destruct (nth_error_get (m_halfedges m) (he_opp h)) as (o & Hoo).
    { rewrite (wf_halfedge_count _ _ _ _ Hwf). exact Ho. }
    rewrite Hoo, (at_Ok _ _ _ Hoo). cbn [bind].
    destruct (he_opp o =? i); cbn [negb]; [|reflexivity].
    rewrite (at_Ok _ _ _ A11). cbn [bind]. rewrite A12, Nat.eqb_refl. cbn [negb].
    rewrite (at_Ok _ _ _ A14). cbn [bind]. rewrite A15, Nat.eqb_refl. reflexivity.
  Qed.

  Lemma mesh_valid_spec : (forall i h, nth_error (m_halfedges m) i = Some h -> he_opp h < N) ->
    mesh_is_valid W dbg (only a m) m =
      (if forallb opp_back (m_halfedges m) then Ok true else if dbg then Trap else Ok false).
  Proof.
    intros Ho. unfold mesh_is_valid. rewrite vertices_valid. cbn [bind negb].
    assert (E : forall l, (forall h, In h l -> In h (m_halfedges m)) ->
      all_valid (halfedge_is_valid W dbg (only a m)) l =
      (if forallb opp_back l then Ok true else if dbg then Trap else Ok false)).
    { induction l as [|h l IH]; intros Hl; [reflexivity|]. cbn [all_valid forallb].
      destruct (In_nth_error _ _ (Hl h (or_introl eq_refl))) as (i & Hi).
      unfold halfedge_is_valid at 1. rewrite (halfedge_valid_impl i h Hi (Ho i h Hi)). cbn [bind].
      destruct (opp_back h); cbn [andb].
      - rewrite geo_assert_true by reflexivity. cbn [bind]. apply IH. intros; apply Hl; right; assumption.
      - unfold geo_assert. destruct dbg; reflexivity. }
    rewrite E by auto.
    destruct (forallb opp_back (m_halfedges m)).
    - cbn [bind negb]. apply facets_valid.
    - destruct dbg; reflexivity.
  Qed.
End Mesh.

Section Query.
  Context {S : Scalar} (L : Linal S) (a : addr).
  Context (ts : list (triangle S)) (m : mesh S) (Hwf : well_formed L a ts m).
  Let N := 3 * length ts.
  Let dh := mkHe 0 0 0 0 0 0 None.

  Lemma nth_he i : i < N -> nth_error (m_halfedges m) i = Some (nth i (m_halfedges m) dh).
  Proof. intros Hi. apply nth_error_nth'. rewrite (wf_halfedge_count _ _ _ _ Hwf). exact Hi. Qed.

  (** the halfedge at position 3k+c *)
  Lemma he_at k c : k < length ts -> c < 3 ->
    let h := nth (3 * k + c) (m_halfedges m) dh in
    nth_error (m_halfedges m) (3 * k + c) = Some h /\
    he_index h = 3 * k + c /\ he_ptr h = Some a /\ he_facet h = k /\ he_next h = 3 * k + (c + 1) mod 3.
  Proof.
    intros Hk Hc h. destruct (nth_error_get ts k Hk) as (t & Ht).
    destruct (wf_halfedge _ _ _ _ Hwf _ t _ Ht Hc) as (h' & p & A1 & A2 & A3 & A4 & A5 & A6 & A7 & A8).
    assert (E : h = h') by (unfold h; apply nth_error_nth; exact A1). rewrite E.
    repeat (split; [assumption|]). assumption.
  Qed.

  Lemma getNext_at k c : k < length ts -> c < 3 ->
    getNext (only a m) (nth (3 * k + c) (m_halfedges m) dh) = Ok (nth (3 * k + (c + 1) mod 3) (m_halfedges m) dh).
  Proof.
    intros Hk Hc. destruct (he_at k c Hk Hc) as (_ & _ & A3 & _ & A5).
    unfold getNext. rewrite A3, deref_only. cbn [bind]. rewrite A5. apply at_Ok, nth_he.
    assert ((c + 1) mod 3 < 3) by (apply Nat.mod_upper_bound; lia). unfold N; lia.
  Qed.

  (** ** C29 *)
  Lemma calc_halfedges_ok k f : nth_error (m_facets m) k = Some f ->
    calc_halfedges (only a m) f =
    Ok [nth (3 * k) (m_halfedges m) dh; nth (3 * k + 1) (m_halfedges m) dh; nth (3 * k + 2) (m_halfedges m) dh].
  Proof.
    intros Hf. destruct (wf_facet _ _ _ _ Hwf _ _ Hf) as (F1 & F2).
    apply nth_error_lt in Hf. rewrite (wf_facet_count _ _ _ _ Hwf) in Hf.
    destruct (he_at k 0 Hf ltac:(lia)) as (A0 & I0 & _), (he_at k 1 Hf ltac:(lia)) as (A1 & I1 & _),
      (he_at k 2 Hf ltac:(lia)) as (A2 & I2 & _).
    pose proof (getNext_at k 0 Hf ltac:(lia)) as N0. pose proof (getNext_at k 1 Hf ltac:(lia)) as N1.
    pose proof (getNext_at k 2 Hf ltac:(lia)) as N2.
    change ((0 + 1) mod 3) with 1 in N0. change ((1 + 1) mod 3) with 2 in N1. change ((2 + 1) mod 3) with 0 in N2.
    rewrite Nat.add_0_r in *.
    assert (Ef : facet_getHalfedge (only a m) f = Ok (nth (3 * k) (m_halfedges m) dh)).
    { unfold facet_getHalfedge. rewrite F2, deref_only. cbn [bind]. rewrite F1. apply at_Ok; exact A0. }
    unfold calc_halfedges. rewrite F2, deref_only, Ef. cbn [bind]. rewrite N0. cbn [bind].
    rewrite (wf_halfedge_count _ _ _ _ Hwf).
    destruct (3 * length ts) as [|n] eqn:En; [lia|].
    cbn [walk]. rewrite Ef. cbn [bind]. rewrite N1. cbn [bind].
    unfold halfedge_ne at 1. unfold halfedge_eq. rewrite I0, I2.
    destruct (Nat.eqb_spec (3 * k + 2) (3 * k)); [lia|]. cbn [negb].
    destruct n as [|n]; [lia|]. cbn [walk]. rewrite Ef. cbn [bind]. rewrite N2. cbn [bind].
    unfold halfedge_ne, halfedge_eq. rewrite I0, Nat.eqb_refl. reflexivity.
  Qed.

  Lemma calc_triangle_indices_ok U :
    calc_triangle_indices U (only a m) (m_facets m) = Ok (map (fun h => he_vertex h mod U) (m_halfedges m)).
  Proof.
    unfold calc_triangle_indices.
    rewrite (mapM_Forall2 _ _ (map (fun k => [nth (3 * k) (m_halfedges m) dh; nth (3 * k + 1) (m_halfedges m) dh;
                                              nth (3 * k + 2) (m_halfedges m) dh]) (seq 0 (length ts)))).
    - cbn [bind]. rewrite triples by apply (wf_halfedge_count _ _ _ _ Hwf). reflexivity.
    - apply Forall2_nth.
      + rewrite map_length, seq_length. apply (wf_facet_count _ _ _ _ Hwf).
      + intros k f y Hf Hy. rewrite (calc_halfedges_ok k f Hf). f_equal.
        apply nth_error_lt in Hf. rewrite (wf_facet_count _ _ _ _ Hwf) in Hf.
        rewrite nth_error_map in Hy. rewrite (nth_error_nth' _ 0) in Hy by (rewrite seq_length; exact Hf).
        rewrite seq_nth in Hy by exact Hf. cbn in Hy. apply Some_inj in Hy. exact Hy.
  Qed.

  (** looking the vertex indices up gives the corner points *)
  Lemma points_nth k t c : nth_error ts k = Some t -> c < 3 ->
    nth_error (points_of ts) (3 * k + c) = Some (corner t c).
  Proof.
    revert k. clear. induction ts as [|[[p q] r] l IH]; intros k Hk Hc; [destruct k; discriminate|].
    destruct k as [|k].
    - cbn in Hk. apply Some_inj in Hk; subst t. apply mod3 in Hc as [-> |[-> | ->]]; reflexivity.
    - cbn in Hk. cbn [points_of flat_map]. rewrite nth_error_app2 by (cbn; lia).
      replace (3 * Datatypes.S k + c - length [p; q; r]) with (3 * k + c) by (cbn; lia). apply IH; assumption.
  Qed.
  Lemma points_length (l : list (triangle S)) : length (points_of l) = 3 * length l.
  Proof.
    induction l as [|[[p q] r] l IH]; [reflexivity|]. cbn [points_of flat_map]. rewrite app_length.
    unfold points_of in IH. rewrite IH. cbn; lia.
  Qed.

  Lemma lookup_corners :
    exists ps, mapM (fun h => at_ (m_points m) (he_vertex h)) (m_halfedges m) = Ok ps /\
      Forall2 (stands_for L) ps (points_of ts).
  Proof.
    assert (H : forall i, i < N -> exists p q, nth_error (m_points m) (he_vertex (nth i (m_halfedges m) dh)) = Some p /\
                nth_error (points_of ts) i = Some q /\ stands_for L p q).
    { intros i Hi. unfold N in Hi. assert (Hc : i mod 3 < 3) by (apply Nat.mod_upper_bound; lia).
      assert (Hk : i / 3 < length ts) by (apply Nat.div_lt_upper_bound; lia).
      destruct (nth_error_get ts (i / 3) Hk) as (t & Ht).
      pose proof (Nat.div_mod i 3 ltac:(lia)) as Edm.
      destruct (wf_halfedge _ _ _ _ Hwf _ t _ Ht Hc) as (h & p & A1 & A2 & A3 & A4 & A5 & A6 & A7 & A8).
      pose proof (points_nth _ t _ Ht Hc) as P. rewrite <- Edm in A1, P.
      rewrite (nth_error_nth _ _ dh A1). eauto. }
    exists (map (fun i => match nth_error (m_points m) (he_vertex (nth i (m_halfedges m) dh)) with
                          | Some p => p | None => mk3 s0 s0 s0 end) (seq 0 N)).
    split.
    - apply mapM_Forall2, Forall2_nth.
      + rewrite map_length, seq_length. apply (wf_halfedge_count _ _ _ _ Hwf).
      + intros i h y Hh Hy. pose proof (nth_error_lt _ _ _ Hh) as Hi.
        rewrite (wf_halfedge_count _ _ _ _ Hwf) in Hi. fold N in Hi.
        rewrite nth_error_map, (nth_error_nth' _ 0), seq_nth in Hy by (rewrite ?seq_length; exact Hi).
        cbn [option_map] in Hy. apply Some_inj in Hy. cbn [Nat.add] in Hy.
        rewrite (nth_error_nth _ _ dh Hh) in Hy.
        destruct (H i Hi) as (p & q & E & _). rewrite (nth_error_nth _ _ dh Hh) in E. rewrite E in Hy. subst y.
        apply at_Ok; exact E.
    - apply Forall2_nth.
      + rewrite map_length, seq_length, points_length. reflexivity.
      + intros i y q Hy Hq. pose proof (nth_error_lt _ _ _ Hq) as Hi. rewrite points_length in Hi. fold N in Hi.
        rewrite nth_error_map, (nth_error_nth' _ 0), seq_nth in Hy by (rewrite ?seq_length; exact Hi).
        cbn [option_map] in Hy. apply Some_inj in Hy. cbn [Nat.add] in Hy.
        destruct (H i Hi) as (p & q' & E & E' & Hs). rewrite E in Hy. subst y. congruence.
  Qed.

  (** ** C30 *)
  Definition edge_ltp (x y : nat * nat) : Prop := edge_lt x y = true.

  Lemma edge_lt_iff x y : edge_lt x y = true <-> fst x < fst y \/ (fst x = fst y /\ snd x < snd y).
  Proof.
    unfold edge_lt. rewrite orb_true_iff, andb_true_iff, !Nat.ltb_lt, Nat.eqb_eq. reflexivity.
  Qed.

  Lemma edge_insert_spec e l :
    StronglySorted edge_ltp l -> (forall x, In x l -> fst x <= snd x) -> fst e <= snd e ->
    StronglySorted edge_ltp (edge_insert e l) /\ forall x, In x (edge_insert e l) <-> x = e \/ In x l.
  Proof.
    intros Hs Ho He. induction Hs as [|y l Hs IH Hy]; cbn [edge_insert].
    - split; [repeat constructor|]. cbn; intuition.
    - destruct (IH (fun x H => Ho x (or_intror H))) as (I1 & I2).
      destruct (edge_lt y e) eqn:E.
      + split.
        * constructor; [exact I1|]. apply Forall_forall. intros x Hx. apply I2 in Hx as [->|Hx]; [exact E|].
          eapply Forall_forall in Hy; eauto.
        * intros x. cbn. rewrite I2. intuition.
      + destruct (edge_eq y e) eqn:Eq; cbn [negb].
        * split; [constructor; assumption|]. intros x. split; [intros; right; assumption|].
          intros [->|Hx]; [|exact Hx]. left.
          unfold edge_eq in Eq. rewrite orb_true_iff, !andb_true_iff, !Nat.eqb_eq in Eq.
          pose proof (Ho y (or_introl eq_refl)). destruct y, e; cbn in *. f_equal; lia.
        * split; [|intros x; cbn; intuition].
          assert (El : edge_lt e y = true).
          { apply edge_lt_iff. assert (~ (fst y < fst e \/ (fst y = fst e /\ snd y < snd e))) by (rewrite <- edge_lt_iff; congruence).
            assert (~ (fst y = fst e /\ snd y = snd e)).
            { intros [H1 H2]. unfold edge_eq in Eq. rewrite H1, H2, !Nat.eqb_refl in Eq. discriminate. }
            lia. }
          constructor; [constructor; assumption|]. constructor; [exact El|].
          apply Forall_forall. intros x Hx. eapply Forall_forall in Hy; eauto.
          unfold edge_ltp in *. rewrite edge_lt_iff in *. lia.
  Qed.

  Lemma calc_line_indices_ok dbg U : length (m_points m) <= U ->
    exists es, calc_line_indices dbg U (only a m) m = Ok (concat (map (fun e => [fst e; snd e]) es)) /\
      StronglySorted edge_ltp es /\
      forall x y, In (x, y) es <-> x <= y /\ exists i, runs m i x y \/ runs m i y x.
  Proof.
    intros HU. unfold calc_line_indices.
    set (step := fun es h => let* n := getNext (only a m) h in
        let* e := edge_create dbg U (he_vertex h) (he_vertex n) in Ok (edge_insert e es)).
    assert (Gk : forall k, k <= N -> exists es, foldM step (firstn k (m_halfedges m)) [] = Ok es /\
      StronglySorted edge_ltp es /\
      forall x y, In (x, y) es <-> x <= y /\ exists i, i < k /\ (runs m i x y \/ runs m i y x)).
    { induction k as [|k IH]; intros Hk.
      - exists []; split; [reflexivity|]. split; [constructor|]. intros x y; split; [intros []|intros (_ & i & Hi & _); lia].
      - destruct (IH ltac:(lia)) as (es & E & Hs & Hin).
        destruct (he_nav L a ts m Hwf k ltac:(unfold N in Hk; lia))
          as (h & nx & pv & u & A1 & A2 & A3 & A4 & A5 & A6 & A7 & A8 & A9 & A10 & A11 & A12 & A13 & A14 & A15 & A16).
        destruct (he_nav L a ts m Hwf _ A10)
          as (nx' & nx2 & pv2 & u2 & B1 & B2 & B3 & B4 & B5 & B6 & B7 & B8 & B9 & B10 & B11 & B12 & B13 & B14 & B15 & B16).
        rewrite A11 in B1; apply Some_inj in B1; subst nx'.
        assert (Ef : firstn (Datatypes.S k) (m_halfedges m) = firstn k (m_halfedges m) ++ [h]).
        { pose proof (nth_error_split _ _ A1) as (l1 & l2 & E1 & E2). rewrite E1.
          rewrite <- E2. rewrite !firstn_app, Nat.sub_diag.
          replace (Datatypes.S (length l1) - length l1) with 1 by lia.
          rewrite firstn_all, firstn_all2 by lia. cbn. rewrite app_nil_r. reflexivity. }
        rewrite Ef, foldM_app, E. cbn [bind foldM]. unfold step at 1, getNext. rewrite A3, deref_only. cbn [bind].
        rewrite (at_Ok _ _ _ A11). cbn [bind].
        unfold edge_create.
        rewrite !geo_assert_true by (apply Nat.leb_le; lia). cbn [bind].
        rewrite !Nat.mod_small by lia.
        set (e := if he_vertex nx <? he_vertex h then (he_vertex nx, he_vertex h) else (he_vertex h, he_vertex nx)).
        assert (He : fst e <= snd e) by (unfold e; destruct (Nat.ltb_spec (he_vertex nx) (he_vertex h)); cbn; lia).
        assert (Hord : forall x, In x es -> fst x <= snd x) by (intros [x y] Hx; apply Hin in Hx as [Hx _]; exact Hx).
        destruct (edge_insert_spec e es Hs Hord He) as (I1 & I2).
        eexists; split; [reflexivity|]. split; [exact I1|].
        assert (Hr : runs m k (he_vertex h) (he_vertex nx)) by (exists h, nx; auto).
        assert (Hr' : forall x y, runs m k x y -> x = he_vertex h /\ y = he_vertex nx).
        { intros x y (h' & n' & C1 & C2 & C3 & C4). rewrite A1 in C1; apply Some_inj in C1; subst h'.
          rewrite A11 in C3; apply Some_inj in C3; subst n'. auto. }
        intros x y. rewrite I2, Hin. split.
        + intros [Ee|(Hle & i & Hi & Hri)].
          * split; [rewrite <- Ee in He; exact He|]. exists k; split; [lia|].
            unfold e in Ee. destruct (he_vertex nx <? he_vertex h); injection Ee as -> ->; auto.
          * split; [exact Hle|]. exists i; split; [lia|exact Hri].
        + intros (Hle & i & Hi & Hri). destruct (Nat.eq_dec i k) as [->|Hne].
          * left. unfold e. destruct Hri as [Hri|Hri]; apply Hr' in Hri as [-> ->];
              destruct (Nat.ltb_spec (he_vertex nx) (he_vertex h)); try reflexivity; try lia.
            f_equal; lia.
          * right. split; [exact Hle|]. exists i; split; [lia|exact Hri]. }
    destruct (Gk N (le_n _)) as (es & E & Hs & Hin).
    unfold N in E. rewrite firstn_all2 in E by (rewrite (wf_halfedge_count _ _ _ _ Hwf); lia).
    exists es. split; [rewrite E; reflexivity|]. split; [exact Hs|].
    intros x y. rewrite Hin. split; intros (Hle & i & H).
    - split; [exact Hle|]. exists i; apply H.
    - split; [exact Hle|]. exists i; split; [|exact H].
      destruct H as [(h & n & Hh & _)|(h & n & Hh & _)]; eapply (he_lt L a ts m Hwf); eauto.
  Qed.

  (** ** C31, incidence *)
  Lemma calc_vertex_facets_ok v x : nth_error (m_vertices m) v = Some x ->
    exists ks fs, calc_vertex_facets (only a m) x = Ok fs /\
      Forall2 (fun k f => nth_error (m_facets m) k = Some f) ks fs /\
      StronglySorted le ks /\
      (forall k, In k ks <-> exists c h, c < 3 /\ nth_error (m_halfedges m) (3 * k + c) = Some h /\ he_vertex h = v).
  Proof.
    intros Hv. destruct (wf_vertex _ _ _ _ Hwf _ _ Hv) as (U1 & U2 & U3 & U4 & U5).
    set (df := mkFacet 0 None).
    set (hs := map (fun i => nth i (m_halfedges m) dh) (v_hes x)).
    set (ks := map (fun i => i / 3) (v_hes x)).
    set (fs := map (fun k => nth k (m_facets m) df) ks).
    assert (Hlt : forall i, In i (v_hes x) -> i < N).
    { intros i Hi. apply U5 in Hi as (h & Hh & _). eapply (he_lt L a ts m Hwf); eauto. }
    assert (H1 : calcHalfedges (only a m) x = Ok hs).
    { unfold calcHalfedges. apply mapM_Forall2. unfold hs.
      assert (G : forall l, (forall i, In i l -> i < N) ->
        Forall2 (fun i y => (let* m0 := deref (only a m) (v_ptr x) in at_ (m_halfedges m0) i) = Ok y) l
                (map (fun i => nth i (m_halfedges m) dh) l)).
      { induction l as [|i l IH]; intros Hl; cbn; constructor.
        - rewrite U2, deref_only. cbn [bind]. apply at_Ok, nth_he, Hl. left; reflexivity.
        - apply IH. intros; apply Hl; right; assumption. }
      apply G; exact Hlt. }
    assert (Hfk : forall i, i < N -> nth_error (m_facets m) (i / 3) = Some (nth (i / 3) (m_facets m) df)).
    { intros i Hi. apply nth_error_nth'. rewrite (wf_facet_count _ _ _ _ Hwf).
      apply Nat.div_lt_upper_bound; unfold N in Hi; lia. }
    exists ks, fs. split; [|split; [|split]].
    - unfold calc_vertex_facets. rewrite H1. cbn [bind]. apply mapM_Forall2. unfold hs, fs, ks. rewrite map_map.
      assert (G : forall l, (forall i, In i l -> i < N) ->
        Forall2 (fun h y => getFacet (only a m) h = Ok y) (map (fun i => nth i (m_halfedges m) dh) l)
                (map (fun i => nth (i / 3) (m_facets m) df) l)).
      { induction l as [|i l IH]; intros Hl; cbn; constructor.
        - pose proof (Hl i (or_introl eq_refl)) as Hi.
          destruct (he_nav L a ts m Hwf i Hi) as (h & nx & pv & u & A1 & A2 & A3 & A4 & _).
          rewrite (nth_error_nth _ _ dh A1). unfold getFacet. rewrite A3, deref_only. cbn [bind]. rewrite A4.
          apply at_Ok, Hfk, Hi.
        - apply IH. intros; apply Hl; right; assumption. }
      apply G; exact Hlt.
    - unfold fs, ks.
      assert (G : forall l, (forall i, In i l -> i < N) ->
        Forall2 (fun k f => nth_error (m_facets m) k = Some f) (map (fun i => i / 3) l)
          (map (fun k => nth k (m_facets m) df) (map (fun i => i / 3) l))).
      { induction l as [|i l IH]; intros Hl; cbn; constructor.
        - apply Hfk, Hl; left; reflexivity.
        - apply IH. intros; apply Hl; right; assumption. }
      apply G; exact Hlt.
    - unfold ks. clear -U4. induction U4 as [|i l _ IH Hi]; cbn [map]; constructor; [exact IH|].
      apply Forall_forall. intros k Hk. apply in_map_iff in Hk as (j & <- & Hj).
      eapply Forall_forall in Hi; eauto. apply Nat.div_le_mono; lia.
    - intros k. unfold ks. rewrite in_map_iff. split.
      + intros (i & <- & Hi). pose proof (Hlt i Hi) as HiN. apply U5 in Hi as (h & Hh & Hvh).
        exists (i mod 3), h. split; [apply Nat.mod_upper_bound; lia|].
        pose proof (Nat.div_mod i 3 ltac:(lia)) as Edm. rewrite <- Edm. auto.
      + intros (c & h & Hc & Hh & Hvh). exists (3 * k + c). split.
        * rewrite Nat.mul_comm, Nat.div_add_l by lia. rewrite Nat.div_small by exact Hc. lia.
        * apply U5; eauto.
  Qed.
End Query.

(** ** Opposites and histories *)
Section History.
  Context {S : Scalar} (L : Linal S) (dbg : bool) (a : addr) (SZ : nat).

  Lemma set_opposite1_sim t (m m' : mesh S) i : set_opposite1 L dbg a SZ t m i = Ok m' -> sim m m'.
  Proof.
    assert (Hrefl : sim m m).
    { repeat split. intros j h Hh; exists h; split; [exact Hh|reflexivity]. }
    unfold set_opposite1. intros H.
    destruct (at_ (m_halfedges m) i) as [h| | | |]; try discriminate. cbn [bind] in H.
    destruct (end_point a m h); try discriminate. cbn [bind] in H.
    destruct (start_point a m h); try discriminate. cbn [bind] in H.
    destruct (nearest SZ t _) as [b| | | |]; try discriminate. cbn [bind] in H.
    destruct (find_candidate L a m _ (b_payload b)) as [[k|]| | | |]; try discriminate; cbn [bind] in H.
    - destruct (at_ (m_halfedges m) k) as [c| | | |]; try discriminate. cbn [bind] in H.
      destruct (upd (m_halfedges m) i _) as [h1| | | |] eqn:U1; try discriminate. cbn [bind] in H.
      destruct (upd h1 k _) as [h2| | | |] eqn:U2; try discriminate. cbn [bind] in H.
      destruct (geo_assert dbg true); try discriminate. cbn [bind] in H. apply Ok_inj in H; subst m'.
      apply upd_inv in U1 as (Hi & Ul1 & Un1). apply upd_inv in U2 as (Hk & Ul2 & Un2).
      repeat split; cbn; try congruence.
      intros j g Hg. rewrite Un2, Un1, Hg. cbn [option_map].
      destruct (j =? k), (j =? i); cbn [option_map]; eexists; (split; [reflexivity|]); reflexivity.
    - destruct (geo_assert dbg false); try discriminate. cbn [bind] in H. apply Ok_inj in H; subst m'. exact Hrefl.
  Qed.

  Lemma set_opposite_sim (m m' : mesh S) : set_opposite_halfedges L dbg a SZ m = Ok m' -> sim m m'.
  Proof.
    unfold set_opposite_halfedges. destruct (build_index L a SZ m) as [t| | | |]; try discriminate. cbn [bind].
    assert (G : forall l m1, foldM (set_opposite1 L dbg a SZ t) l m1 = Ok m' -> sim m1 m').
    { induction l as [|i l IH]; intros m1 H; cbn in H.
      - apply Ok_inj in H; subst. repeat split. intros j h Hh; exists h; split; [exact Hh|reflexivity].
      - destruct (set_opposite1 L dbg a SZ t m1 i) as [m2| | | |] eqn:E; try discriminate. cbn in H.
        eapply sim_trans; [eapply set_opposite1_sim; eauto|]. apply IH; exact H. }
    apply G.
  Qed.
End History.
