(** * Meshes: histories, opposites of built meshes, equality, moves, translations *)

From Coq Require Import List Arith Bool Lia Sorting.Sorted Reals Lra ZArith.
From Verif Require Import Scalar Linal Result SpecReal VecR ModelKdTree SpecKdTree ProofKdTree ProofKdTreeUpdate
  ModelMesh SpecMesh ProofMesh ProofMeshOpp ProofMeshValid ProofMeshNormal.
Import ListNotations.
Local Open Scope nat_scope.

Local Arguments Nat.ltb _ _ : simpl never.
Local Arguments Nat.leb _ _ : simpl never.
Local Arguments Nat.eqb _ _ : simpl never.
Local Arguments Nat.modulo _ _ : simpl never.
Local Arguments Nat.mul _ _ : simpl never.

Section Hist.
  Context {S : Scalar} (L : Linal S) (W : nat) (dbg : bool) (a : addr) (SZ : nat).

  Lemma history_wf_from hist : forall ts0 (m m' : mesh S), well_formed L a ts0 m ->
    3 * (length ts0 + length (added hist)) < W ->
    foldM (mesh_step L W dbg a SZ) hist m = Ok m' -> well_formed L a (ts0 ++ added hist) m'.
  Proof.
    induction hist as [|o hist IH]; intros ts0 m m' Hwf HW H; cbn in H.
    - apply Ok_inj in H; subst. cbn. rewrite app_nil_r. exact Hwf.
    - destruct (mesh_step L W dbg a SZ m o) as [m1| | | |] eqn:E; try discriminate. cbn in H.
      destruct o as [t|]; cbn [mesh_step] in E.
      + cbn [added flat_map app] in *. fold (added (S := S) hist) in *. cbn [length] in HW.
        destruct (add_triangle_wf L W dbg a ts0 m t Hwf ltac:(lia)) as (m2 & E2 & W2 & _).
        assert (m2 = m1) by congruence. subst m2.
        replace (ts0 ++ t :: added hist) with ((ts0 ++ [t]) ++ added hist) by (rewrite <- app_assoc; reflexivity).
        eapply IH; eauto. rewrite app_length; cbn; lia.
      + cbn [added flat_map app] in *. fold (added (S := S) hist) in *.
        refine (IH ts0 m1 m' _ HW H). eapply wf_sim; [exact Hwf|]. eapply set_opposite_sim; eauto.
  Qed.

  Lemma history_wf hist (m : mesh S) : 3 * length (added hist) < W ->
    mesh_run L W dbg a SZ hist = Ok m -> well_formed L a (added hist) m.
  Proof. intros HW H. apply (history_wf_from hist [] empty_mesh m (wf_empty L a) HW H). Qed.

  Lemma adds_run ts m : foldM (mesh_step L W dbg a SZ) (map (@AddTriangle S) ts) m = add_triangles L W dbg a m ts.
  Proof.
    revert m; induction ts as [|t ts IH]; intros m; [reflexivity|].
    cbn [map foldM mesh_step add_triangles]. destruct (add_triangle L W dbg a m t); try reflexivity. cbn [bind]. apply IH.
  Qed.

  Lemma built_unfold ts m : add_triangles L W dbg a empty_mesh ts = Ok m ->
    built L W dbg a SZ ts = set_opposite_halfedges L dbg a SZ m.
  Proof.
    intros H. unfold built, mesh_run. rewrite foldM_app, adds_run, H. cbn [bind foldM mesh_step].
    destruct (set_opposite_halfedges L dbg a SZ m); reflexivity.
  Qed.

  Lemma add_wf ts : 3 * length ts < W ->
    exists m, add_triangles L W dbg a empty_mesh ts = Ok m /\ well_formed L a ts m.
  Proof.
    intros HW. destruct (add_triangles_wf L W dbg a [] empty_mesh ts (wf_empty L a) HW) as (m & E & H & _).
    exists m; auto.
  Qed.
End Hist.

(** ** Built meshes *)
Lemma NoDup_twice {A} (es : list A) : NoDup es -> at_most_twice es.
Proof.
  intros H i j k e Hij Ei Ej _. pose proof (proj1 (NoDup_nth_error es) H i j) as K.
  assert (i = j); [|lia]. apply K; [eapply nth_error_lt; eauto|congruence].
Qed.

Section Built.
  Context {S : Scalar} (L : Linal S) (W : nat) (dbg : bool) (a : addr) (SZ : nat).
  Context (G : point S -> Prop) (HG : veq_on L (G : vec S 3 -> Prop)).
  Context (HN : forall (t : @tree S 3 (list nat)) k q, ordered 3 SZ 0 t -> (forall x, In x (tpts 3 t) -> G x) ->
             In q (tpts 3 t) -> exists b, nearest SZ (mkKd t k) q = Ok b /\ b_point b = q).
  Context (ts : list (triangle S)) (HT : forall p, In p (points_of ts) -> G p) (HW : 3 * length ts < W).

  Let HT' : forall p q, In (p, q) (edges_of ts) -> G p /\ G q.
  Proof.
    intros p q H. clear HW. induction ts as [|[[p0 p1] p2] l IH]; [destruct H|].
    cbn in H. destruct H as [H|[H|[H|H]]].
    - injection H as <- <-. split; apply HT; cbn; auto.
    - injection H as <- <-. split; apply HT; cbn; auto.
    - injection H as <- <-. split; apply HT; cbn; auto.
    - apply IH; [|exact H]. intros x Hx. apply HT. cbn. auto.
  Qed.

  Lemma built_ok : exists m, built L W dbg a SZ ts = Ok m /\ well_formed L a ts m /\
    forall i h, nth_error (m_halfedges m) i = Some h ->
      exists f l, same_edge ts i f /\ same_edge ts i l /\ (forall j, same_edge ts i j -> f <= j <= l) /\
        f <= i <= l /\ he_opp h = if i =? f then l else f.
  Proof.
    destruct (add_wf L W dbg a ts HW) as (m0 & E0 & W0).
    destruct (set_opposite_ok L dbg a SZ G HG HN ts HT' m0 W0) as (m & E & Hw & _ & Ho).
    exists m. rewrite (built_unfold L W dbg a SZ ts m0 E0). split; [exact E|]. split; [exact Hw|].
    intros i h Hh. destruct (Ho i h Hh) as (f & l & H1 & H2 & H3 & H4 & H5 & H6).
    exists f, l. unfold same_edge. split; [split; [lia|exact H3]|]. split; [split; [exact H2|exact H4]|].
    split; [intros j [Hj Ej]; apply H5; auto|]. split; [exact H1|exact H6].
  Qed.

  Lemma opp_in_range m : well_formed L a ts m -> 
    (forall i h, nth_error (m_halfedges m) i = Some h ->
      exists f l, same_edge ts i f /\ same_edge ts i l /\ (forall j, same_edge ts i j -> f <= j <= l) /\
        f <= i <= l /\ he_opp h = if i =? f then l else f) ->
    forall i h, nth_error (m_halfedges m) i = Some h -> he_opp h < 3 * length ts.
  Proof.
    intros _ Ho i h Hh. destruct (Ho i h Hh) as (f & l & [F _] & [Hl _] & _ & _ & ->). destruct (i =? f); assumption.
  Qed.

  Lemma built_valid : exists m, built L W dbg a SZ ts = Ok m /\
    (at_most_twice (edges_of ts) <-> mesh_is_valid W dbg (only a m) m = Ok true) /\
    (~ at_most_twice (edges_of ts) <-> mesh_is_valid W dbg (only a m) m = if dbg then Trap else Ok false).
  Proof.
    destruct built_ok as (m & E & Hw & Ho). exists m. split; [exact E|].
    rewrite (mesh_valid_spec L W dbg a ts m Hw HW (opp_in_range m Hw Ho)).
    assert (K : forallb (opp_back m) (m_halfedges m) = true <-> at_most_twice (edges_of ts)).
    { assert (Elen : length (edges_of ts) = length (m_halfedges m)).
      { rewrite edges_length. symmetry. apply (wf_halfedge_count _ _ _ _ Hw). }
      rewrite forallb_forall. split.
      - intros Hall i j k e Hij Ei Ej Ek.
        assert (Hj : j < length (m_halfedges m)) by (rewrite <- Elen; eapply nth_error_lt; eauto).
        assert (Hk' : k < 3 * length ts) by (rewrite <- edges_length; eapply nth_error_lt; eauto).
        destruct (nth_error_get _ _ Hj) as (h & Hh).
        destruct (Ho j h Hh) as (f & l & F1 & L1 & Hfl & Hfj & Hop).
        assert (same_edge ts j i) by (split; [lia|congruence]).
        assert (same_edge ts j k) by (split; [lia|congruence]).
        pose proof (Hfl i H). pose proof (Hfl k H0).
        destruct (Nat.eqb_spec j f); [lia|].
        specialize (Hall h (nth_error_In _ _ Hh)). unfold opp_back in Hall. rewrite Hop in Hall.
        destruct (nth_error_get (m_halfedges m) f) as (hf & Hhf); [lia|]. rewrite Hhf in Hall.
        apply Nat.eqb_eq in Hall. rewrite (wf_index L a G HG ts HT' m j h Hw Hh) in Hall.
        destruct (Ho f hf Hhf) as (f' & l' & F1' & L1' & Hfl' & Hfj' & Hop').
        assert (Hfj2 : same_edge ts f j).
        { split; [lia|]. destruct F1 as [_ F1]. congruence. }
        assert (Hfk2 : same_edge ts f k).
        { split; [lia|]. destruct F1 as [_ F1]. congruence. }
        assert (Hff' : same_edge ts j f') by (split; [apply F1'|destruct F1 as [_ F1], F1' as [_ F1']; congruence]).
        pose proof (Hfl f' Hff'). pose proof (Hfl' k Hfk2).
        destruct (Nat.eqb_spec f f'); lia.
      - intros Htw h Hin. apply In_nth_error in Hin as (i & Hh).
        destruct (Ho i h Hh) as (f & l & F1 & L1 & Hfl & Hfi & Hop).
        unfold opp_back. rewrite (wf_index L a G HG ts HT' m i h Hw Hh).
        assert (Hio : same_edge ts i (he_opp h)) by (rewrite Hop; destruct (i =? f); assumption).
        destruct Hio as [Hio1 Hio2].
        destruct (nth_error_get (m_halfedges m) (he_opp h)) as (o & Hoo); [rewrite <- Elen, edges_length; exact Hio1|].
        rewrite Hoo. apply Nat.eqb_eq.
        destruct (Ho _ o Hoo) as (f' & l' & F1' & L1' & Hfl' & Hfi' & Hop').
        assert (X : forall j, same_edge ts i j <-> same_edge ts (he_opp h) j) by (intros j; unfold same_edge; rewrite Hio2; tauto).
        assert (f = f') as <-.
        { apply Nat.le_antisymm; [apply Hfl, X, F1'|apply Hfl', X, F1]. }
        assert (l = l') as <-.
        { apply Nat.le_antisymm; [apply Hfl', X, L1|apply Hfl, X, L1']. }
        pose proof (nth_error_lt _ _ _ Hh) as Hi. rewrite <- Elen in Hi.
        destruct (nth_error_get _ _ Hi) as (e & He).
        assert (Hthree : f < i < l -> False).
        { intros HH. apply (Htw f i l e HH); [rewrite <- He; apply F1|exact He|rewrite <- He; apply L1]. }
        rewrite Hop'. destruct (Nat.eqb_spec i f); rewrite Hop.
        + destruct (Nat.eqb_spec l f); lia.
        + rewrite Nat.eqb_refl. lia. }
    destruct (forallb (opp_back m) (m_halfedges m)).
    - split; [split; [reflexivity|intros _; apply K; reflexivity]|].
      split; [intros H; exfalso; apply H, K; reflexivity|destruct dbg; discriminate].
    - split.
      + split; [intros H; apply K in H; discriminate|destruct dbg; discriminate].
      + split; [reflexivity|]. intros _ H. apply K in H. discriminate.
  Qed.

  (** with pairwise distinct directed edges every halfedge is its own opposite *)
  Lemma built_self_opposite : NoDup (edges_of ts) ->
    exists m, built L W dbg a SZ ts = Ok m /\ well_formed L a ts m /\
      forall i j, i < 3 * length ts -> (opposite_of m i j <-> j = i).
  Proof.
    intros Hnd. destruct built_ok as (m & E & Hw & Ho). exists m. split; [exact E|]. split; [exact Hw|].
    intros i j Hi.
    destruct (nth_error_get (m_halfedges m) i) as (h & Hh); [rewrite (wf_halfedge_count _ _ _ _ Hw); exact Hi|].
    destruct (Ho i h Hh) as (f & l & [F1 F2] & [L1 L2] & Hfl & Hfi & Hop).
    assert (U : forall x, x < 3 * length ts -> nth_error (edges_of ts) x = nth_error (edges_of ts) i -> x = i).
    { intros x Hx Ex. apply (proj1 (NoDup_nth_error _) Hnd); [rewrite edges_length; exact Hx|exact Ex]. }
    rewrite (U f F1 F2) in Hop. rewrite (U l L1 L2), Nat.eqb_refl in Hop.
    split.
    - intros (h' & Hh' & Ej). rewrite Hh in Hh'. apply Some_inj in Hh'. congruence.
    - intros ->. exists h; auto.
  Qed.

  (** the end points of the halfedge at position [i] *)
  Lemma runs_edge m i u v : well_formed L a ts m -> runs m i u v ->
    exists p q, nth_error (edges_of ts) i = Some (p, q) /\
      nth_error (m_points m) u = Some p /\ nth_error (m_points m) v = Some q.
  Proof.
    intros Hw (h & n & Hh & <- & Hn & <-).
    assert (Hi : i < 3 * length ts) by (rewrite <- (wf_halfedge_count _ _ _ _ Hw); eapply nth_error_lt; eauto).
    destruct (wf_nav L a G HG ts HT' m i Hw Hi) as (h' & nx & u & v & A1 & A2 & A3 & A4 & A5 & A6 & A7 & B1 & B2 & B3 & B4 & B5 & B6).
    assert (h' = h) by congruence. subst h'. assert (nx = n) by congruence. subst nx.
    eexists; eexists. split; [|split; eauto]. apply edge_at. exact Hi.
  Qed.

  Lemma built_not_opposite : closed_oriented (edges_of ts) ->
    exists m, built L W dbg a SZ ts = Ok m /\
      forall i, i < 3 * length ts ->
        (exists j u v, opposite_of m i i /\ runs m i u v /\ runs m j v u /\ j <> i) /\
        ~ (exists j u v, opposite_of m i j /\ runs m i u v /\ runs m j v u).
  Proof.
    intros [Hnd Hcl]. destruct (built_self_opposite Hnd) as (m & E & Hw & Ho). exists m. split; [exact E|].
    assert (Hrun : forall i p q, nth_error (edges_of ts) i = Some (p, q) -> exists u v, runs m i u v /\
              nth_error (m_points m) u = Some p /\ nth_error (m_points m) v = Some q).
    { intros i p q Hi. assert (Hi' : i < 3 * length ts) by (rewrite <- edges_length; eapply nth_error_lt; eauto).
      destruct (wf_nav L a G HG ts HT' m i Hw Hi') as (h' & nx & u & v & A1 & A2 & A3 & A4 & A5 & A6 & A7 & B1 & B2 & B3 & B4 & B5 & B6).
      rewrite (edge_at ts i Hi') in Hi. injection Hi as Es Ee.
      exists (he_vertex h'), (he_vertex nx). split; [exists h', nx; auto|]. rewrite <- Es, <- Ee. auto. }
    assert (Hinj : forall u v p, nth_error (m_points m) u = Some p -> nth_error (m_points m) v = Some p -> G p -> u = v).
    { intros u v p Hu Hv Hp. pose proof (proj2 (HG p p Hp Hp) eq_refl) as Hr.
      destruct (Nat.lt_total u v) as [Hl|[Hl|Hl]]; [|exact Hl|].
      - rewrite (wf_points_distinct _ _ _ _ Hw u v p p Hl Hu Hv) in Hr. discriminate.
      - rewrite (wf_points_distinct _ _ _ _ Hw v u p p Hl Hv Hu) in Hr. discriminate. }
    intros i Hi. destruct (nth_error_get (edges_of ts) i) as ([p q] & He); [rewrite edges_length; exact Hi|].
    destruct (Hcl p q (nth_error_In _ _ He)) as (Hpq & Hrev).
    destruct (HT' p q (nth_error_In _ _ He)) as (Gp & Gq).
    destruct (Hrun i p q He) as (u & v & Hr & Hu & Hv).
    split.
    - apply In_nth_error in Hrev as (j & Hj). destruct (Hrun j q p Hj) as (v' & u' & Hr' & Hv' & Hu').
      exists j, u, v. split; [apply Ho; auto|]. split; [exact Hr|].
      rewrite (Hinj v v' q Hv Hv' Gq), (Hinj u u' p Hu Hu' Gp). split; [exact Hr'|].
      intros ->. rewrite He in Hj. injection Hj. intros. congruence.
    - intros (j & u1 & v1 & Hopp & Hr1 & Hr2). apply Ho in Hopp; [|exact Hi]. subst j.
      destruct (runs_edge m i u1 v1 Hw Hr1) as (p1 & q1 & E1 & P1 & Q1).
      destruct (runs_edge m i v1 u1 Hw Hr2) as (p2 & q2 & E2 & P2 & Q2).
      congruence.
  Qed.
End Built.

(** ** Equality *)
Section Eq.
  Context {S : Scalar} (L : Linal S) (a : addr).

  Lemma hes_equal_spec l r : 
    (hes_equal l r = Ok true <-> exists s, r = l ++ s) /\
    (hes_equal l r = UB <-> exists s x, l = r ++ x :: s).
  Proof.
    revert r; induction l as [|x l IH]; intros r; cbn [hes_equal].
    - split; split; try discriminate; try reflexivity.
      + intros _. exists r. reflexivity.
      + intros (s & y & H). destruct r; discriminate.
    - destruct r as [|y r].
      + split; split; try discriminate; try reflexivity.
        * intros (s & H). discriminate.
        * intros _. exists l, x. reflexivity.
      + destruct (IH r) as (A & B). destruct (Nat.eqb_spec x y) as [->|Hne].
        * split.
          -- rewrite A. split; intros (s & H); exists s; [rewrite H; reflexivity|injection H; auto].
          -- rewrite B. split; intros (s & z & H); exists s, z; [rewrite H; reflexivity|injection H; auto].
        * split; split; try discriminate.
          -- intros (s & H). injection H; intros; congruence.
          -- intros (s & z & H). injection H; intros; congruence.
  Qed.

  Lemma ptr_eqb_spec p q : ptr_eqb p q = true <-> p = q.
  Proof.
    destruct p, q; cbn; split; try discriminate; try reflexivity.
    - intros H. apply Nat.eqb_eq in H. congruence.
    - intros H. injection H as ->. apply Nat.eqb_refl.
  Qed.

  Lemma vertex_eq_spec u v :
    (vertex_eq u v = Ok true <-> v_ptr u = v_ptr v /\ v_index u = v_index v /\ exists s, v_hes v = v_hes u ++ s) /\
    (vertex_eq u v = UB <-> v_ptr u = v_ptr v /\ v_index u = v_index v /\ exists s x, v_hes u = v_hes v ++ x :: s).
  Proof.
    unfold vertex_eq. pose proof (ptr_eqb_spec (v_ptr u) (v_ptr v)) as Hp.
    destruct (hes_equal_spec (v_hes u) (v_hes v)) as (A & B).
    destruct (ptr_eqb (v_ptr u) (v_ptr v)); cbn [negb].
    - destruct (Nat.eqb_spec (v_index u) (v_index v)) as [E|E]; cbn [negb].
      + rewrite A, B. destruct Hp as [Hp _]. specialize (Hp eq_refl). tauto.
      + split; split; try discriminate; tauto.
    - destruct Hp as [_ Hp]. split; split; try discriminate; intros (H & _); apply Hp in H; discriminate.
  Qed.

  (** a mesh contains its own elements *)
  Lemma contains_own ts m : well_formed L a ts m ->
    (forall v, In v (m_vertices m) -> contains_vertex m v = Ok true) /\
    (forall h, In h (m_halfedges m) -> contains_halfedge m h = true) /\
    (forall f, In f (m_facets m) -> contains_facet m f = true).
  Proof.
    intros Hw. split; [|split].
    - intros v Hv. unfold contains_vertex.
      assert (K : forall l, (forall u, In u l -> In u (m_vertices m)) -> In v l -> contains_vertex_in v l = Ok true).
      { induction l as [|u l IH]; intros Hl Hin; [destruct Hin|]. cbn [contains_vertex_in].
        destruct (In_nth_error _ _ Hv) as (i & Hi). destruct (In_nth_error _ _ (Hl u (or_introl eq_refl))) as (j & Hj).
        destruct (wf_vertex _ _ _ _ Hw _ _ Hi) as (I1 & I2 & _). destruct (wf_vertex _ _ _ _ Hw _ _ Hj) as (J1 & J2 & _).
        destruct (Nat.eq_dec i j) as [->|Hne].
        - assert (u = v) by congruence. subst u.
          assert (Et : vertex_eq v v = Ok true).
          { apply vertex_eq_spec. split; [reflexivity|]. split; [reflexivity|]. exists []. rewrite app_nil_r. reflexivity. }
          rewrite Et. reflexivity.
        - unfold vertex_eq. rewrite I1, J1, I2, J2. cbn [ptr_eqb]. rewrite Nat.eqb_refl. cbn [negb].
          destruct (Nat.eqb_spec i j); [lia|]. cbn [negb bind].
          destruct Hin as [->|Hin]; [congruence|]. apply IH; [|exact Hin]. intros; apply Hl; right; assumption. }
      apply K; auto.
    - intros h Hh. apply existsb_exists. exists h. split; [exact Hh|apply Nat.eqb_refl].
    - intros f Hf. apply existsb_exists. exists f. split; [exact Hf|].
      unfold facet_eq. rewrite Nat.eqb_refl. cbn. apply ptr_eqb_spec. reflexivity.
  Qed.

  (** comparing with a copy that has seen one more halfedge reads out of range *)
  Lemma contains_stale ts m v x i : well_formed L a ts m -> nth_error (m_vertices m) v = Some x ->
    3 * length ts <= i -> contains_vertex m (addHalfedgeIndex i x) = UB.
  Proof.
    intros Hw Hv Hi. destruct (wf_vertex _ _ _ _ Hw _ _ Hv) as (V1 & V2 & V3 & V4 & V5).
    assert (Es : v_hes (addHalfedgeIndex i x) = v_hes x ++ [i]).
    { cbn. apply std_sort_sorted. apply StronglySorted_snoc; [exact V4|].
      intros y Hy. apply V5 in Hy as (h & Hh & _). apply nth_error_lt in Hh. rewrite (wf_halfedge_count _ _ _ _ Hw) in Hh. lia. }
    unfold contains_vertex.
    assert (K : forall l, (forall u, In u l -> In u (m_vertices m)) -> In x l ->
              contains_vertex_in (addHalfedgeIndex i x) l = UB).
    { induction l as [|u l IH]; intros Hl Hin; [destruct Hin|]. cbn [contains_vertex_in].
      destruct (In_nth_error _ _ (Hl u (or_introl eq_refl))) as (j & Hj).
      destruct (wf_vertex _ _ _ _ Hw _ _ Hj) as (J1 & J2 & _).
      destruct (Nat.eq_dec v j) as [->|Hne].
      - assert (u = x) by congruence. subst u.
        assert (Et : vertex_eq (addHalfedgeIndex i x) x = UB).
        { apply vertex_eq_spec. split; [reflexivity|]. split; [reflexivity|]. exists [], i. exact Es. }
        rewrite Et. reflexivity.
      - unfold vertex_eq. cbn [addHalfedgeIndex v_ptr v_index]. rewrite V1, J1, V2, J2. cbn [ptr_eqb]. rewrite Nat.eqb_refl. cbn [negb].
        destruct (Nat.eqb_spec v j); [lia|]. cbn [negb bind].
        destruct Hin as [->|Hin]; [congruence|]. apply IH; [|exact Hin]. intros; apply Hl; right; assumption. }
    apply K; auto. eapply nth_error_In; eauto.
  Qed.
End Eq.

(** ** Moving a mesh *)
Section Move.
  Context {S : Scalar} (L : Linal S) (a b : addr) (Hab : a <> b).

  Lemma move_target (mm : mem S) (m : mesh S) : mm a = Some m ->
    deref (move_mesh mm a b) (Some b) = Ok m /\ deref (move_mesh mm a b) (Some a) = Ok empty_mesh.
  Proof.
    intros H. unfold deref, move_mesh. rewrite Nat.eqb_refl, H.
    destruct (Nat.eqb_spec a b); [congruence|]. rewrite Nat.eqb_refl. auto.
  Qed.

  Lemma at_nil {A} i : at_ (@nil A) i = UB.
  Proof. destruct i; reflexivity. Qed.

  Lemma move_breaks ts (mm : mem S) (m : mesh S) : mm a = Some m -> well_formed L a ts m ->
    forall mm', mm' = move_mesh mm a b \/ mm' = destroy (move_mesh mm a b) a ->
    deref mm' (Some b) = Ok m /\
    (forall h, In h (m_halfedges m) ->
       getNext mm' h = UB /\ getPrevious mm' h = UB /\ getOpposite mm' h = UB /\ getVertex mm' h = UB /\ getFacet mm' h = UB) /\
    (forall v, In v (m_vertices m) -> getVector mm' v = UB /\ calcHalfedges mm' v = UB) /\
    (forall f, In f (m_facets m) -> facet_getHalfedge mm' f = UB).
  Proof.
    intros Hm Hw mm' Hmm. destruct (move_target mm m Hm) as (Tb & Ta).
    assert (Da : deref mm' (Some a) = Ok empty_mesh \/ deref mm' (Some a) = UB).
    { destruct Hmm as [->| ->]; [left; exact Ta|]. right. unfold deref, destroy. rewrite Nat.eqb_refl. reflexivity. }
    assert (Db : deref mm' (Some b) = Ok m).
    { destruct Hmm as [->| ->]; [exact Tb|]. unfold deref, destroy in *. destruct (Nat.eqb_spec b a); [congruence|]. exact Tb. }
    split; [exact Db|].
    assert (X : forall A (f : mesh S -> list A) i, f empty_mesh = [] ->
       (let* m0 := deref mm' (Some a) in at_ (f m0) i) = UB).
    { intros A f i Hf. destruct Da as [-> | ->]; [|reflexivity]. cbn [bind]. rewrite Hf. apply at_nil. }
    split; [|split].
    - intros h Hh. apply In_nth_error in Hh as (i & Hi).
      assert (Hi' : i < 3 * length ts) by (rewrite <- (wf_halfedge_count _ _ _ _ Hw); eapply nth_error_lt; eauto).
      destruct (he_nav L a ts m Hw i Hi') as (h' & nx & pv & u & A1 & A2 & A3 & _).
      assert (h' = h) by congruence. subst h'.
      unfold getNext, getPrevious, getOpposite, getVertex, getFacet. rewrite A3.
      repeat split; apply X; reflexivity.
    - intros v Hv. apply In_nth_error in Hv as (i & Hi). destruct (wf_vertex _ _ _ _ Hw _ _ Hi) as (V1 & V2 & V3 & _).
      split.
      + unfold getVector. rewrite V2. apply (X _ (@m_points S)); reflexivity.
      + unfold calcHalfedges. rewrite V2. destruct (v_hes v) as [|k l]; [congruence|]. cbn [mapM].
        rewrite X by reflexivity. reflexivity.
    - intros f Hf. apply In_nth_error in Hf as (i & Hi). destruct (wf_facet _ _ _ _ Hw _ _ Hi) as (F1 & F2).
      unfold facet_getHalfedge. rewrite F2. apply X; reflexivity.
  Qed.
End Move.

(** ** Points *)
Section Points.
  Context {S : Scalar}.
  Lemma components_spec (l : list (point S)) :
    length (vectorsToComponents l) = 3 * length l /\
    forall i c p, nth_error l i = Some p -> c < 3 ->
      nth_error (vectorsToComponents l) (3 * i + c) = Some (vnth s0 c p).
  Proof.
    induction l as [|q l (IH1 & IH2)].
    - split; [reflexivity|]. intros [|i]; discriminate.
    - unfold vectorsToComponents in *. cbn [map concat]. split.
      + rewrite app_length, IH1. cbn [length]. lia.
      + intros [|i] c p Hp Hc.
        * cbn in Hp. apply Some_inj in Hp; subst q. destruct (mod3 c Hc) as [-> |[-> | ->]]; reflexivity.
        * cbn in Hp. rewrite nth_error_app2 by (cbn; lia).
          replace (3 * Datatypes.S i + c - length [vnth s0 0 q; vnth s0 1 q; vnth s0 2 q]) with (3 * i + c) by (cbn; lia).
          apply IH2; assumption.
  Qed.
End Points.

Lemma nth_map_inv {A B} (f : A -> B) l i y : nth_error (map f l) i = Some y ->
  exists x, nth_error l i = Some x /\ y = f x.
Proof.
  rewrite nth_error_map. destruct (nth_error l i) as [x|]; [|discriminate]. cbn. intros H. apply Some_inj in H. eauto.
Qed.

Section Translate.
  Context (M : R) (L : Linal (RS M)) (HL : veq_exact L) (a : addr).

  Definition shift (d : vec R 3) (t : triangle (RS M)) : triangle (RS M) :=
    let '(p0, p1, p2) := t in (radd p0 d, radd p1 d, radd p2 d).

  Lemma shift_corner d t c : corner (shift d t) c = radd (corner t c) d.
  Proof. destruct t as [[p0 p1] p2]. destruct c as [|[|[|c]]]; reflexivity. Qed.

  Lemma radd_cancel_r (p q d : vec R 3) : radd p d = radd q d -> p = q.
  Proof.
    intros H. rewrite (radd_comm p), (radd_comm q) in H.
    rewrite <- (rsub_add_cancel d p), <- (rsub_add_cancel d q), H. reflexivity.
  Qed.

  Lemma translate_wf ts m (d : vec R 3) : well_formed L a ts m ->
    well_formed L a (map (shift d) ts) (@translate_points (RS M) m d).
  Proof.
    intros [H1 H2 H3 H4 H5 H6 H7 H8].
    split; cbn [translate_points m_halfedges m_facets m_vertices m_points]; rewrite ?map_length; auto.
    - intros k t c Ht Hc. rewrite nth_error_map in Ht. destruct (nth_error ts k) as [t0|] eqn:E; [|discriminate].
      cbn in Ht. apply Some_inj in Ht; subst t.
      destruct (H5 k t0 c E Hc) as (h & p & A1 & A2 & A3 & A4 & A5 & A6 & A7 & A8).
      exists h, (radd p d). repeat (split; [assumption|]). split.
      + rewrite <- (vadd_R M p d). exact (map_nth_error (fun q : point (RS M) => @vadd (RS M) 3 q d) _ _ A7).
      + left. rewrite shift_corner. f_equal. destruct A8 as [A8|A8]; [exact A8|]. apply HL; exact A8.
    - intros i j p q Hij Hp Hq.
      destruct (nth_map_inv _ _ _ _ Hp) as (p0 & Ep & ->). destruct (nth_map_inv _ _ _ _ Hq) as (q0 & Eq & ->).
      apply not_true_is_false. intros Hv. apply HL in Hv. rewrite !vadd_R in Hv. apply radd_cancel_r in Hv. subst q0.
      pose proof (H7 i j p0 p0 Hij Ep Eq) as K. rewrite (proj2 (HL 3 p0 p0) eq_refl) in K. discriminate.
    - intros p Hp. apply in_map_iff in Hp as (p0 & <- & Hp0). destruct (H8 p0 Hp0) as (t & c & Ht & Hc & ->).
      exists (shift d t), c. split; [apply in_map; exact Ht|]. split; [exact Hc|].
      rewrite shift_corner, vadd_R. reflexivity.
  Qed.
End Translate.

(** ** Running out of indices *)
Section Overflow.
  Context {S : Scalar} (L : Linal S) (W : nat).
  Lemma points_contains_diverges (pts : list (point S)) p :
    W <= length pts -> (forall q, In q pts -> veq L q p = false) -> points_contains L W pts p = Diverge.
  Proof.
    intros Hl Hne. unfold points_contains.
    destruct (find_index (fun q : point S => veq L q p) (firstn W pts)) as [i|] eqn:E.
    - apply find_index_Some in E as (x & Hx & Hp). exfalso.
      assert (In x pts).
      { apply nth_error_In in Hx. rewrite <- (firstn_skipn W pts). apply in_or_app; left; exact Hx. }
      rewrite (Hne x H) in Hp. discriminate.
    - destruct (Nat.ltb_spec (length pts) W); [lia|reflexivity].
  Qed.
End Overflow.
