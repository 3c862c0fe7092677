(** * Building halfedge meshes: invariants *)

From Coq Require Import List Arith Bool Lia Sorting.Sorted.
From Verif Require Import Scalar Linal Result ModelKdTree ModelMesh SpecMesh.
Import ListNotations.

Local Arguments Nat.ltb _ _ : simpl never.
Local Arguments Nat.leb _ _ : simpl never.
Local Arguments Nat.eqb _ _ : simpl never.
Local Arguments Nat.modulo _ _ : simpl never.
Local Arguments Nat.mul _ _ : simpl never.
Local Arguments vec _ _ : simpl never.

(** ** Lists *)

Lemma at_Ok {A} (l : list A) i x : nth_error l i = Some x -> at_ l i = Ok x.
Proof. unfold at_; intros ->; reflexivity. Qed.

Lemma at_inv {A} (l : list A) i x : at_ l i = Ok x -> nth_error l i = Some x.
Proof. unfold at_; destruct (nth_error l i); intros H; [apply Ok_inj in H; subst; reflexivity|discriminate]. Qed.

Lemma upd_Ok {A} (l : list A) i f : i < length l ->
  exists l', upd l i f = Ok l' /\ length l' = length l /\
    forall j, nth_error l' j = if j =? i then option_map f (nth_error l j) else nth_error l j.
Proof.
  revert i; induction l as [|x r IH]; intros i Hi; cbn in Hi; [lia|].
  destruct i as [|i]; cbn.
  - eexists; split; [reflexivity|]; split; [reflexivity|]. intros [|j]; reflexivity.
  - destruct (IH i ltac:(lia)) as (l' & E & Hl & Hn). rewrite E. cbn.
    eexists; split; [reflexivity|]. split; [cbn; lia|].
    intros [|j]; cbn; [reflexivity|]. apply Hn.
Qed.

Lemma upd_app {A} (l r : list A) x f : upd (l ++ x :: r) (length l) f = Ok (l ++ f x :: r).
Proof. induction l as [|y l IH]; cbn; [reflexivity|]. rewrite IH; reflexivity. Qed.

Lemma upd_inv {A} (l l' : list A) i f : upd l i f = Ok l' ->
  i < length l /\ length l' = length l /\
    forall j, nth_error l' j = if j =? i then option_map f (nth_error l j) else nth_error l j.
Proof.
  intros H. destruct (Nat.lt_ge_cases i (length l)) as [Hi|Hi].
  - destruct (upd_Ok l i f Hi) as (l'' & E & Hl & Hn). rewrite E in H. apply Ok_inj in H; subst. auto.
  - exfalso. clear -H Hi. revert i l' Hi H. induction l as [|x r IH]; intros i l' Hi H; cbn in H; [discriminate|].
    destruct i as [|i]; cbn in Hi; [lia|].
    destruct (upd r i f) as [r'| | | |] eqn:E; cbn in H; try discriminate.
    apply (IH i r'); auto; lia.
Qed.

Lemma nth_error_app_last {A} (l : list A) x : nth_error (l ++ [x]) (length l) = Some x.
Proof. rewrite nth_error_app2, Nat.sub_diag by lia; reflexivity. Qed.

Lemma nth_error_app_some {A} (l r : list A) i x : nth_error l i = Some x -> nth_error (l ++ r) i = Some x.
Proof. intros H. rewrite nth_error_app1; auto. apply nth_error_Some; congruence. Qed.

Lemma nth_error_lt {A} (l : list A) i x : nth_error l i = Some x -> i < length l.
Proof. intros H; apply nth_error_Some; congruence. Qed.

Lemma nth_error_get {A} (l : list A) i : i < length l -> exists x, nth_error l i = Some x.
Proof. intros H; apply nth_error_Some in H; destruct (nth_error l i); [eauto|contradiction]. Qed.

Lemma find_index_Some {A} (p : A -> bool) l i : find_index p l = Some i ->
  exists x, nth_error l i = Some x /\ p x = true.
Proof.
  revert i; induction l as [|x r IH]; intros i H; cbn in H; [discriminate|].
  destruct (p x) eqn:E.
  - apply Some_inj in H; subst. exists x; auto.
  - destruct (find_index p r) as [k|]; [|discriminate]. apply Some_inj in H; subst. cbn. apply IH; reflexivity.
Qed.

Lemma find_index_None {A} (p : A -> bool) l : find_index p l = None ->
  forall i x, nth_error l i = Some x -> p x = false.
Proof.
  induction l as [|x r IH]; intros H i y Hy; [destruct i; discriminate|].
  cbn in H. destruct (p x) eqn:E; [discriminate|]. destruct (find_index p r) eqn:F; [discriminate|].
  destruct i as [|i]; cbn in Hy; [apply Some_inj in Hy; subst; assumption|]. eapply IH; eauto.
Qed.

Lemma ins_sorted_front l x : (forall y, In y l -> x < y) -> ins_sorted Nat.ltb x l = x :: l.
Proof.
  destruct l as [|y r]; intros H; cbn; [reflexivity|].
  specialize (H y (or_introl eq_refl)).
  destruct (Nat.ltb_spec y x); [lia|reflexivity].
Qed.

Lemma std_sort_sorted l : StronglySorted lt l -> std_sort Nat.ltb l = l.
Proof.
  induction 1 as [|x l Hs IH Hx]; cbn; [reflexivity|].
  unfold std_sort in IH; rewrite IH. apply ins_sorted_front.
  rewrite Forall_forall in Hx; exact Hx.
Qed.

Lemma StronglySorted_snoc l x : StronglySorted lt l -> (forall y, In y l -> y < x) ->
  StronglySorted lt (l ++ [x]).
Proof.
  induction 1 as [|y l Hs IH Hy]; intros H; cbn; [repeat constructor|].
  constructor.
  - apply IH; intros; apply H; right; assumption.
  - rewrite Forall_forall in *. intros z Hz. apply in_app_or in Hz as [Hz|[<-|[]]]; auto.
    apply H; left; reflexivity.
Qed.

Lemma StronglySorted_is_sorted l : StronglySorted lt l -> is_sorted l = true.
Proof.
  induction 1 as [|x l Hs IH Hx]; cbn; [reflexivity|].
  destruct l as [|y r]; [reflexivity|].
  apply andb_true_iff; split; [|exact IH].
  rewrite Forall_forall in Hx; specialize (Hx y (or_introl eq_refl)).
  destruct (Nat.ltb_spec y x); [lia|reflexivity].
Qed.

Lemma foldM_app {A St} (f : St -> A -> res St) l r s :
  foldM f (l ++ r) s = let* s' := foldM f l s in foldM f r s'.
Proof. revert s; induction l as [|x l IH]; intros s; cbn; [reflexivity|]. destruct (f s x); cbn; auto. Qed.

(** ** The incremental invariant *)
Section Proof.
  Context {S : Scalar} (L : Linal S) (W : nat) (dbg : bool) (a : addr).

  (** consistency of vertices, points and halfedge starts; also holds while a
      triangle is being added *)
  Record inv (m : mesh S) : Prop := mkInv {
    i_nv : length (m_vertices m) = length (m_points m);
    i_vertex : forall v x, nth_error (m_vertices m) v = Some x ->
      v_index x = v /\ v_ptr x = Some a /\ StronglySorted lt (v_hes x) /\
      forall i, In i (v_hes x) <-> exists h, nth_error (m_halfedges m) i = Some h /\ he_vertex h = v;
    i_he : forall i h, nth_error (m_halfedges m) i = Some h -> he_vertex h < length (m_points m);
    i_distinct : forall i j p q, i < j ->
      nth_error (m_points m) i = Some p -> nth_error (m_points m) j = Some q -> veq L p q = false
  }.

  Lemma inv_empty : inv empty_mesh.
  Proof.
    split; cbn; auto.
    - intros v x H; destruct v; discriminate.
    - intros i h H; destruct i; discriminate.
    - intros i j p q _ H; destruct i; discriminate.
  Qed.

  (** effect of create_or_find_vertex1 *)
  Definition extends (m m' : mesh S) : Prop :=
    exists new, m_points m' = m_points m ++ new /\ m_halfedges m' = m_halfedges m /\
      m_facets m' = m_facets m.

  Lemma idx_valid_lt i : i < W - 1 -> idx_valid W i = true.
  Proof. unfold idx_valid; intros; destruct (Nat.eqb_spec i (W - 1)); [lia|reflexivity]. Qed.

  Lemma cfv1_spec m p : inv m -> length (m_points m) + 1 < W ->
    exists m' i q, create_or_find_vertex1 L W dbg a m p = Ok (m', i) /\ inv m' /\
      m_halfedges m' = m_halfedges m /\ m_facets m' = m_facets m /\
      nth_error (m_points m') i = Some q /\ stands_for L q p /\
      ((m' = m) \/ (m_points m' = m_points m ++ [p] /\ i = length (m_points m))).
  Proof.
    intros Hi Hlen. unfold create_or_find_vertex1, points_contains.
    rewrite firstn_all2 by lia.
    destruct (find_index _ _) as [i|] eqn:F.
    - apply find_index_Some in F as (q & Hq & Hv). cbn.
      rewrite geo_assert_true; [|apply idx_valid_lt; apply nth_error_lt in Hq; lia]. cbn.
      exists m, i, q. split; [reflexivity|]. split; [exact Hi|].
      repeat (split; [auto; right; exact Hv|]). left; reflexivity.
    - pose proof (find_index_None _ _ F) as Hn.
      destruct (Nat.ltb_spec (length (m_points m)) W); [|lia]. cbn.
      rewrite app_length; cbn.
      replace ((length (m_points m) + 1) mod W + (W - 1)) with (length (m_points m) + 1 * W)
        by (rewrite Nat.mod_small by lia; lia).
      rewrite Nat.mod_add, Nat.mod_small by lia.
      rewrite geo_assert_true by (apply idx_valid_lt; lia). cbn.
      eexists; exists (length (m_points m)), p; split; [reflexivity|].
      split; [|cbn; repeat split; auto using nth_error_app_last; left; reflexivity].
      destruct Hi as [Hnv Hvx Hhe Hd]. split; cbn.
      + rewrite !app_length; cbn; lia.
      + intros v x Hx.
        destruct (Nat.lt_ge_cases v (length (m_vertices m))) as [Hv|Hv].
        * rewrite nth_error_app1 in Hx by lia. apply Hvx; assumption.
        * assert (v = length (m_vertices m)) as ->.
          { apply nth_error_lt in Hx; rewrite app_length in Hx; cbn in Hx; lia. }
          rewrite nth_error_app_last in Hx; apply Some_inj in Hx; subst x; cbn.
          rewrite Nat.mod_small by lia. repeat split; auto.
          -- constructor.
          -- intros [].
          -- intros (h & Hh & Hv'). apply Hhe in Hh. lia.
      + intros i h Hh. apply Hhe in Hh. rewrite app_length; cbn; lia.
      + intros i j q r Hij Hq Hr.
        destruct (Nat.lt_ge_cases j (length (m_points m))) as [Hj|Hj].
        * rewrite nth_error_app1 in Hq, Hr by lia. exact (Hd i j q r Hij Hq Hr).
        * assert (j = length (m_points m)) as ->.
          { apply nth_error_lt in Hr; rewrite app_length in Hr; cbn in Hr; lia. }
          rewrite nth_error_app_last in Hr; apply Some_inj in Hr; subst r.
          rewrite nth_error_app1 in Hq by lia. exact (Hn i q Hq).
  Qed.

  Definition new_he (i v : nat) : halfedge :=
    mkHe i (inv_idx W) v (inv_idx W) (inv_idx W) (inv_idx W) (Some a).

  Lemma add_corner_spec first m fi v : inv m -> length (m_halfedges m) + 1 < W ->
    length (m_facets m) + 1 < W -> length (m_points m) < W ->
    v < length (m_points m) ->
    exists m', add_corner W dbg a first (m, fi) v =
        Ok (m', if first then length (m_facets m) else fi) /\ inv m' /\
      m_halfedges m' = m_halfedges m ++ [new_he (length (m_halfedges m)) v] /\
      m_points m' = m_points m /\ length (m_vertices m') = length (m_vertices m) /\
      m_facets m' = (if first then m_facets m ++ [mkFacet (length (m_halfedges m)) (Some a)] else m_facets m).
  Proof.
    intros Hi Hh Hf Hp Hv. unfold add_corner.
    rewrite (Nat.mod_small (length (m_halfedges m))) by lia.
    rewrite geo_assert_true by (apply idx_valid_lt; lia). cbn [bind].
    rewrite (Nat.mod_small (length (m_facets m))) by lia.
    pose proof (i_nv _ Hi) as Hnv.
    destruct (upd_Ok (m_vertices m) v (addHalfedgeIndex (length (m_halfedges m)))) as (vs & Eu & Hl & Hn); [lia|].
    assert (Hinv : forall fs, inv (mkMesh vs
       (m_halfedges m ++ [new_he (length (m_halfedges m)) v]) fs (m_points m))).
    { intros fs. destruct Hi as [_ Hvx Hhe Hd]. split; cbn; auto.
      - lia.
      - intros w x Hx. rewrite Hn in Hx.
        assert (Hold : forall y, nth_error (m_vertices m) w = Some y ->
                  forall i, (exists h, nth_error (m_halfedges m) i = Some h /\ he_vertex h = w) ->
                  i < length (m_halfedges m)).
        { intros y _ i (h & Hh' & _). apply nth_error_lt in Hh'; assumption. }
        destruct (Nat.eqb_spec w v) as [->|Hne].
        + destruct (nth_error (m_vertices m) v) as [y|] eqn:Ey; [|discriminate].
          cbn in Hx; apply Some_inj in Hx; subst x.
          destruct (Hvx _ _ Ey) as (H1 & H2 & H3 & H4). cbn.
          assert (Hs : StronglySorted lt (v_hes y ++ [length (m_halfedges m)])).
          { apply StronglySorted_snoc; auto. intros i Hin. apply H4 in Hin. eapply Hold; eauto. }
          rewrite std_sort_sorted by assumption.
          repeat split; auto.
          * intros Hin. apply in_app_or in Hin as [Hin|[<-|[]]].
            -- apply H4 in Hin as (h & Hh1 & Hh2). exists h; split; auto using nth_error_app_some.
            -- eexists; split; [apply nth_error_app_last|reflexivity].
          * intros (h & Hh1 & Hh2).
            destruct (Nat.lt_ge_cases i (length (m_halfedges m))) as [Hlt|Hge].
            -- rewrite nth_error_app1 in Hh1 by lia. apply in_or_app; left. apply H4; eauto.
            -- apply nth_error_lt in Hh1; rewrite app_length in Hh1; cbn in Hh1.
               apply in_or_app; right; left; lia.
        + destruct (Hvx _ _ Hx) as (H1 & H2 & H3 & H4).
          repeat split; auto.
          * intros Hin. apply H4 in Hin as (h & Hh1 & Hh2). exists h; split; auto using nth_error_app_some.
          * intros (h & Hh1 & Hh2).
            destruct (Nat.lt_ge_cases i (length (m_halfedges m))) as [Hlt|Hge].
            -- rewrite nth_error_app1 in Hh1 by lia. apply H4; eauto.
            -- pose proof Hh1 as Hh1'. apply nth_error_lt in Hh1; rewrite app_length in Hh1; cbn in Hh1.
               assert (i = length (m_halfedges m)) as -> by lia.
               rewrite nth_error_app_last in Hh1'. apply Some_inj in Hh1'; subst h. cbn in Hh2. congruence.
      - intros i h Hh'.
        destruct (Nat.lt_ge_cases i (length (m_halfedges m))) as [Hlt|Hge].
        + rewrite nth_error_app1 in Hh' by lia. eapply Hhe; eauto.
        + pose proof Hh' as Hh''. apply nth_error_lt in Hh'; rewrite app_length in Hh'; cbn in Hh'.
          assert (i = length (m_halfedges m)) as -> by lia.
          rewrite nth_error_app_last in Hh''. apply Some_inj in Hh''; subst h. cbn. assumption. }
    destruct first; cbn [bind]; repeat (rewrite geo_assert_true;
        [cbn [bind]|first [apply idx_valid_lt; lia | apply Nat.ltb_lt; lia]]);
      rewrite Eu; cbn [bind]; eexists; (split; [reflexivity|]); cbn; auto 10.
  Qed.

  Definition linked (i k v nx pv : nat) (opp : nat) : halfedge := mkHe i k v nx pv opp (Some a).

  Lemma link_spec fi (m : mesh S) H v0 v1 v2 : m_halfedges m = H ++ [new_he (length H) v0;
      new_he (length H + 1) v1; new_he (length H + 2) v2] ->
    length (m_halfedges m) < W ->
    link W fi m = Ok (mkMesh (m_vertices m)
      (H ++ [linked (length H) fi v0 (length H + 1) (length H + 2) (inv_idx W);
             linked (length H + 1) fi v1 (length H + 2) (length H) (inv_idx W);
             linked (length H + 2) fi v2 (length H) (length H + 1) (inv_idx W)])
      (m_facets m) (m_points m)).
  Proof.
    intros E Hlt. unfold link. rewrite E in *. rewrite app_length in *; cbn [length] in *.
    set (n := length H) in *.
    rewrite (Nat.mod_small (n + 3 - 3)) by lia. rewrite (Nat.mod_small (n + 3)) by lia.
    replace (n + 3 - 3) with n by lia. replace (n + 3 - n) with 3 by lia.
    replace (n + 3 + (W - 1)) with (n + 2 + 1 * W) by lia.
    rewrite Nat.mod_add, (Nat.mod_small (n + 2)) by lia.
    cbn [seq foldM].
    destruct (Nat.eqb_spec n (n + 2)); [lia|]. rewrite Nat.eqb_refl.
    destruct (Nat.eqb_spec (Datatypes.S n) (n + 2)); [lia|].
    destruct (Nat.eqb_spec (Datatypes.S n) n); [lia|].
    destruct (Nat.eqb_spec (Datatypes.S (Datatypes.S n)) (n + 2)); [|lia].
    destruct (Nat.eqb_spec (Datatypes.S (Datatypes.S n)) n); [lia|].
    unfold n.
    assert (U0 : forall f x y z, upd (H ++ [x; y; z]) (length H) f = Ok (H ++ [f x; y; z])).
    { intros; apply upd_app. }
    assert (U1 : forall f x y z, upd (H ++ [x; y; z]) (Datatypes.S (length H)) f = Ok (H ++ [x; f y; z])).
    { intros. replace (H ++ [x; y; z]) with ((H ++ [x]) ++ [y; z]) by (rewrite <- app_assoc; reflexivity).
      replace (Datatypes.S (length H)) with (length (H ++ [x])) by (rewrite app_length; cbn; lia).
      rewrite upd_app, <- app_assoc; reflexivity. }
    assert (U2 : forall f x y z, upd (H ++ [x; y; z]) (Datatypes.S (Datatypes.S (length H))) f = Ok (H ++ [x; y; f z])).
    { intros. replace (H ++ [x; y; z]) with ((H ++ [x; y]) ++ [z]) by (rewrite <- app_assoc; reflexivity).
      replace (Datatypes.S (Datatypes.S (length H))) with (length (H ++ [x; y])) by (rewrite app_length; cbn; lia).
      rewrite upd_app, <- app_assoc; reflexivity. }
    repeat (first [rewrite U0 | rewrite U1 | rewrite U2]; cbn [bind]).
    unfold linked, set_prev, set_next, set_facet; cbn.
    repeat f_equal; lia.
  Qed.

  (** links do not matter for [inv] *)
  Lemma inv_relink (m : mesh S) vs fs pts hes : inv m ->
    vs = m_vertices m -> pts = m_points m ->
    length hes = length (m_halfedges m) ->
    (forall i h, nth_error hes i = Some h -> exists h', nth_error (m_halfedges m) i = Some h' /\ he_vertex h' = he_vertex h) ->
    inv (mkMesh vs hes fs pts).
  Proof.
    intros [Hnv Hvx Hhe Hd] -> -> Hlen Hrel. split; cbn; auto.
    - intros v x Hx. destruct (Hvx _ _ Hx) as (H1 & H2 & H3 & H4). repeat split; auto; intros Hin.
      + apply H4 in Hin as (h & Hh & Hv).
        destruct (nth_error_get hes i) as (h' & Hh'); [rewrite Hlen; eapply nth_error_lt; eauto|].
        destruct (Hrel _ _ Hh') as (h'' & E1 & E2). exists h'; split; auto. congruence.
      + destruct Hin as (h & Hh & Hv). destruct (Hrel _ _ Hh) as (h' & E1 & E2).
        apply H4. exists h'; split; congruence.
    - intros i h Hh. destruct (Hrel _ _ Hh) as (h' & E1 & E2). rewrite <- E2. eauto.
  Qed.

  Lemma nth3 {A} (H : list A) x y z i r : nth_error (H ++ [x; y; z]) i = Some r ->
    (i < length H /\ nth_error H i = Some r) \/ (i = length H /\ r = x) \/
    (i = length H + 1 /\ r = y) \/ (i = length H + 2 /\ r = z).
  Proof.
    intros Hi. destruct (Nat.lt_ge_cases i (length H)) as [Hl|Hg].
    - left; rewrite nth_error_app1 in Hi by lia; auto.
    - right. rewrite nth_error_app2 in Hi by lia.
      destruct (i - length H) as [|[|[|k]]] eqn:E; cbn in Hi; try (apply Some_inj in Hi; subst).
      + left; split; [lia|reflexivity].
      + right; left; split; [lia|reflexivity].
      + right; right; split; [lia|reflexivity].
      + destruct k; discriminate.
  Qed.

  (** ** One triangle *)
  Lemma add_triangle_spec m t : inv m ->
    length (m_points m) + 3 < W -> length (m_halfedges m) + 3 < W -> length (m_facets m) + 2 < W ->
    exists m' new v0 v1 v2 q0 q1 q2,
      add_triangle L W dbg a m t = Ok m' /\ inv m' /\
      m_points m' = m_points m ++ new /\ length new <= 3 /\ (forall p, In p new -> p = corner t 0 \/ p = corner t 1 \/ p = corner t 2) /\
      (forall j, length (m_points m) <= j < length (m_points m) + length new -> j = v0 \/ j = v1 \/ j = v2) /\
      m_facets m' = m_facets m ++ [mkFacet (length (m_halfedges m)) (Some a)] /\
      (let n := length (m_halfedges m) in
       m_halfedges m' = m_halfedges m ++
        [linked n (length (m_facets m)) v0 (n + 1) (n + 2) (inv_idx W);
         linked (n + 1) (length (m_facets m)) v1 (n + 2) n (inv_idx W);
         linked (n + 2) (length (m_facets m)) v2 n (n + 1) (inv_idx W)]) /\
      nth_error (m_points m') v0 = Some q0 /\ stands_for L q0 (corner t 0) /\
      nth_error (m_points m') v1 = Some q1 /\ stands_for L q1 (corner t 1) /\
      nth_error (m_points m') v2 = Some q2 /\ stands_for L q2 (corner t 2).
  Proof.
    intros Hi Hp Hh Hf. destruct t as [[p0 p1] p2]. unfold add_triangle, create_or_find_vertex.
    destruct (cfv1_spec m p0 Hi ltac:(lia)) as (m0 & i0 & q0 & E0 & I0 & Hh0 & Hf0 & Hq0 & Hs0 & Hor0).
    assert (Hx0 : exists n0, m_points m0 = m_points m ++ n0 /\ length n0 <= 1 /\ (forall p, In p n0 -> p = p0) /\
              (n0 = [] \/ i0 = length (m_points m))).
    { destruct Hor0 as [-> | [E Ei]]; [exists []; rewrite app_nil_r; cbn; repeat split; auto; intros p []|].
      exists [p0]; repeat split; auto. intros p [<-|[]]; reflexivity. }
    destruct Hx0 as (n0 & En0 & Ln0 & Inn0 & Ui0).
    destruct (cfv1_spec m0 p1 I0 ltac:(rewrite En0, app_length; lia)) as (m1 & i1 & q1 & E1 & I1 & Hh1 & Hf1 & Hq1 & Hs1 & Hor1).
    assert (Hx1 : exists n1, m_points m1 = m_points m0 ++ n1 /\ length n1 <= 1 /\ (forall p, In p n1 -> p = p1) /\
              (n1 = [] \/ i1 = length (m_points m0))).
    { destruct Hor1 as [-> | [E Ei]]; [exists []; rewrite app_nil_r; cbn; repeat split; auto; intros p []|].
      exists [p1]; repeat split; auto. intros p [<-|[]]; reflexivity. }
    destruct Hx1 as (n1 & En1 & Ln1 & Inn1 & Ui1).
    destruct (cfv1_spec m1 p2 I1 ltac:(rewrite En1, En0, !app_length; lia)) as (m2 & i2 & q2 & E2 & I2 & Hh2 & Hf2 & Hq2 & Hs2 & Hor2).
    assert (Hx2 : exists n2, m_points m2 = m_points m1 ++ n2 /\ length n2 <= 1 /\ (forall p, In p n2 -> p = p2) /\
              (n2 = [] \/ i2 = length (m_points m1))).
    { destruct Hor2 as [-> | [E Ei]]; [exists []; rewrite app_nil_r; cbn; repeat split; auto; intros p []|].
      exists [p2]; repeat split; auto. intros p [<-|[]]; reflexivity. }
    destruct Hx2 as (n2 & En2 & Ln2 & Inn2 & Ui2).
    rewrite E0; cbn [bind]. rewrite E1; cbn [bind]. rewrite E2; cbn [bind].
    assert (Hq0' : nth_error (m_points m2) i0 = Some q0).
    { rewrite En2, En1; auto using nth_error_app_some. }
    assert (Hq1' : nth_error (m_points m2) i1 = Some q1).
    { rewrite En2; auto using nth_error_app_some. }
    assert (Hpl : length (m_points m2) < W).
    { rewrite En2, En1, En0, !app_length; lia. }
    rewrite geo_assert_true.
    2:{ rewrite !andb_true_iff; repeat split; apply idx_valid_lt;
        eapply Nat.lt_le_trans; try (eapply nth_error_lt; eassumption);
        rewrite En2, En1, En0, !app_length; lia. }
    cbn [bind].
    destruct (add_corner_spec true m2 (inv_idx W) i0 I2) as (c0 & F0 & J0 & G0 & P0 & V0 & K0);
      [rewrite Hh2, Hh1, Hh0; lia|rewrite Hf2, Hf1, Hf0; lia|assumption|eapply nth_error_lt; eassumption|].
    rewrite F0; cbn [bind].
    destruct (add_corner_spec false c0 (length (m_facets m2)) i1 J0) as (c1 & F1 & J1 & G1 & P1 & V1 & K1);
      [rewrite G0, app_length; cbn; rewrite Hh2, Hh1, Hh0; lia
      |rewrite K0, app_length; cbn; rewrite Hf2, Hf1, Hf0; lia
      |rewrite P0; assumption|rewrite P0; eapply nth_error_lt; eassumption|].
    rewrite F1; cbn [bind].
    destruct (add_corner_spec false c1 (length (m_facets m2)) i2 J1) as (c2 & F2 & J2 & G2 & P2 & V2 & K2);
      [rewrite G1, G0, !app_length; cbn; rewrite Hh2, Hh1, Hh0; lia
      |rewrite K1, K0, app_length; cbn; rewrite Hf2, Hf1, Hf0; lia
      |rewrite P1, P0; assumption|rewrite P1, P0; eapply nth_error_lt; eassumption|].
    rewrite F2; cbn [bind].
    assert (Hhm : m_halfedges m2 = m_halfedges m) by congruence.
    assert (Hfm : m_facets m2 = m_facets m) by congruence.
    rewrite Hhm, Hfm in *.
    set (n := length (m_halfedges m)) in *.
    assert (G : m_halfedges c2 = m_halfedges m ++ [new_he n i0; new_he (n + 1) i1; new_he (n + 2) i2]).
    { rewrite G2, G1, G0. rewrite !app_length; cbn [length]. fold n. rewrite <- !app_assoc; cbn.
      replace (n + 1 + 1) with (n + 2) by lia. reflexivity. }
    rewrite geo_assert_true by (apply idx_valid_lt; lia). cbn [bind].
    rewrite geo_assert_true by (apply Nat.leb_le; rewrite G, app_length; cbn; lia). cbn [bind].
    rewrite (link_spec (length (m_facets m)) c2 (m_halfedges m) i0 i1 i2 G) by (rewrite G, app_length; cbn; fold n; lia).
    fold n.
    eexists; exists (n0 ++ n1 ++ n2), i0, i1, i2, q0, q1, q2. split; [reflexivity|].
    cbn [m_points m_halfedges m_facets].
    rewrite P2, P1, P0, K2, K1, K0.
    split.
    { apply (inv_relink c2); auto; [congruence| |].
      - rewrite G, !app_length; reflexivity.
      - intros i h Hih. rewrite G. apply nth3 in Hih as [[Hl E]|[[-> ->]|[[-> ->]|[-> ->]]]].
        + exists h; split; auto using nth_error_app_some.
        + exists (new_he n i0); split; [|reflexivity]. rewrite nth_error_app2 by lia. fold n; rewrite Nat.sub_diag; reflexivity.
        + exists (new_he (n + 1) i1); split; [|reflexivity]. rewrite nth_error_app2 by lia. fold n.
          replace (n + 1 - n) with 1 by lia; reflexivity.
        + exists (new_he (n + 2) i2); split; [|reflexivity]. rewrite nth_error_app2 by lia. fold n.
          replace (n + 2 - n) with 2 by lia; reflexivity. }
    split; [rewrite En2, En1, En0, <- !app_assoc; reflexivity|].
    split; [rewrite !app_length; lia|].
    split.
    { intros p Hin. apply in_app_or in Hin as [Hin|Hin]; [left; cbn; auto|].
      apply in_app_or in Hin as [Hin|Hin]; [right; left|right; right]; cbn; auto. }
    split.
    { intros j Hj. rewrite !app_length in Hj.
      rewrite En1, En0, !app_length in Ui2. rewrite En0, app_length in Ui1.
      destruct Ui0 as [-> |Ui0], Ui1 as [-> |Ui1], Ui2 as [-> |Ui2]; cbn in *; lia. }
    split; [reflexivity|].
    split; [reflexivity|].
    cbn [corner]. auto 10.
  Qed.

  (** ** Sequences of triangles *)
  Lemma wf_inv ts m : well_formed L a ts m -> inv m.
  Proof.
    intros [H1 H2 H3 H4 H5 H6 H7 H8]. split; auto.
    - intros v x Hx. destruct (H6 _ _ Hx) as (? & ? & ? & ? & ?); auto.
    - intros i h Hh. pose proof (nth_error_lt _ _ _ Hh) as Hl. rewrite H1 in Hl.
      destruct (nth_error_get ts (i / 3)) as (t & Ht); [apply Nat.div_lt_upper_bound; lia|].
      destruct (H5 (i / 3) t (i mod 3) Ht) as (h' & p & Hh' & _ & _ & _ & _ & _ & Hp & _);
        [apply Nat.mod_upper_bound; lia|].
      rewrite <- Nat.div_mod in Hh' by lia. rewrite Hh in Hh'. apply Some_inj in Hh'; subst h'.
      eapply nth_error_lt; eauto.
  Qed.

  Lemma wf_empty : well_formed L a [] empty_mesh.
  Proof.
    split; cbn; auto.
    - intros [|k] f H; discriminate.
    - intros [|k] t c H; discriminate.
    - intros [|v] x H; discriminate.
    - intros [|i] j p q _ H; discriminate.
    - intros p [].
  Qed.

  Lemma mod3 c : c < 3 -> c = 0 \/ c = 1 \/ c = 2.
  Proof. lia. Qed.

  Lemma wf_size ts m : well_formed L a ts m -> length (m_points m) <= 3 * length ts.
  Proof.
    intros H. rewrite <- (wf_halfedge_count _ _ _ _ H).
    (* every vertex has its own halfedge *)
    pose proof (wf_vertex _ _ _ _ H) as Hv.
    rewrite <- (wf_vertex_count _ _ _ _ H).
    assert (G : forall k, k <= length (m_vertices m) ->
              exists l, length l = k /\ NoDup l /\ forall i, In i l -> i < length (m_halfedges m) /\
                exists h, nth_error (m_halfedges m) i = Some h /\ he_vertex h < k).
    { induction k as [|k IH]; intros Hk.
      - exists []; repeat split; try constructor; destruct H0.
      - destruct (IH ltac:(lia)) as (l & Hl & Hnd & Hin).
        destruct (nth_error_get (m_vertices m) k ltac:(lia)) as (x & Hx).
        destruct (Hv _ _ Hx) as (_ & _ & Hne & _ & Hiff).
        destruct (v_hes x) as [|i r] eqn:E; [contradiction|].
        destruct (proj1 (Hiff i) (or_introl eq_refl)) as (h & Hh & Hvx).
        exists (i :: l); split; [cbn; lia|]. split.
        + constructor; auto. intros Hi. apply Hin in Hi as (_ & h' & Hh' & Hlt). rewrite Hh in Hh'.
          apply Some_inj in Hh'; subst h'. lia.
        + intros j [<-|Hj].
          * split; [eapply nth_error_lt; eauto|]. exists h; split; auto; lia.
          * destruct (Hin _ Hj) as (Hb & h' & Hh' & Hlt). split; auto. exists h'; split; auto. }
    destruct (G _ (le_n _)) as (l & Hl & Hnd & Hin).
    rewrite <- Hl. rewrite <- (seq_length (length (m_halfedges m)) 0).
    apply NoDup_incl_length; auto. intros i Hi. apply in_seq. apply Hin in Hi. lia.
  Qed.

  Lemma add_triangle_wf ts m t : well_formed L a ts m -> 3 * (length ts + 1) < W ->
    exists m', add_triangle L W dbg a m t = Ok m' /\ well_formed L a (ts ++ [t]) m' /\
      (forall i h, nth_error (m_halfedges m') i = Some h -> 3 * length ts <= i -> he_opp h = inv_idx W) /\
      (forall i, i < 3 * length ts -> nth_error (m_halfedges m') i = nth_error (m_halfedges m) i).
  Proof.
    intros Hwf HW. pose proof (wf_inv _ _ Hwf) as Hi. pose proof (wf_size _ _ Hwf) as Hsz.
    pose proof (wf_halfedge_count _ _ _ _ Hwf) as Hhc. pose proof (wf_facet_count _ _ _ _ Hwf) as Hfc.
    destruct (add_triangle_spec m t Hi ltac:(lia) ltac:(lia) ltac:(lia))
      as (m' & new & v0 & v1 & v2 & q0 & q1 & q2 & E & Hi' & Hp & Hnl & Hnew & Hcov & Hf & Hh & Hq0 & Hs0 & Hq1 & Hs1 & Hq2 & Hs2).
    cbn zeta in Hh.
    exists m'; split; [exact E|]. rewrite Hhc in Hh, Hf.
    split; [|split].
    2:{ intros i h Hih Hge. rewrite Hh in Hih. apply nth3 in Hih. rewrite Hhc in Hih.
        destruct Hih as [[Hl _]|[[_ ->]|[[_ ->]|[_ ->]]]]; [lia| | | ]; reflexivity. }
    2:{ intros i Hlt. rewrite Hh, nth_error_app1 by lia. reflexivity. }
    destruct Hwf as [_ _ _ W4 W5 W6 W7 W8]. destruct Hi' as [I1 I2 I3 I4].
    split; auto.
    - rewrite Hh, !app_length, Hhc; cbn; lia.
    - rewrite Hf, !app_length, Hfc; cbn; lia.
    - intros k f Hk. rewrite Hf in Hk.
      destruct (Nat.lt_ge_cases k (length (m_facets m))) as [Hl|Hg].
      + rewrite nth_error_app1 in Hk by lia. auto.
      + assert (k = length (m_facets m)) as -> by (apply nth_error_lt in Hk; rewrite app_length in Hk; cbn in Hk; lia).
        rewrite nth_error_app_last in Hk; apply Some_inj in Hk; subst f; cbn. split; [lia|reflexivity].
    - intros k u c Hk Hc.
      destruct (Nat.lt_ge_cases k (length ts)) as [Hl|Hg].
      + rewrite nth_error_app1 in Hk by lia.
        destruct (W5 k u c Hk Hc) as (h & p & A1 & A2 & A3 & A4 & A5 & A6 & A7 & A8).
        exists h, p. rewrite Hh, Hp. repeat (split; auto using nth_error_app_some).
      + assert (k = length ts) as -> by (apply nth_error_lt in Hk; rewrite app_length in Hk; cbn in Hk; lia).
        rewrite nth_error_app_last in Hk; apply Some_inj in Hk; subst u.
        rewrite Hh, Hfc.
        apply mod3 in Hc as [-> |[-> | ->]]; cbn [Nat.add Nat.modulo Nat.divmod fst snd Nat.sub].
        * exists (linked (3 * length ts) (length ts) v0 (3 * length ts + 1) (3 * length ts + 2) (inv_idx W)), q0.
          rewrite nth_error_app2 by lia. rewrite Hhc. replace (3 * length ts + 0 - 3 * length ts) with 0 by lia.
          cbn. repeat (split; auto; try lia).
        * exists (linked (3 * length ts + 1) (length ts) v1 (3 * length ts + 2) (3 * length ts) (inv_idx W)), q1.
          rewrite nth_error_app2 by lia. rewrite Hhc. replace (3 * length ts + 1 - 3 * length ts) with 1 by lia.
          cbn. repeat (split; auto; try lia).
        * exists (linked (3 * length ts + 2) (length ts) v2 (3 * length ts) (3 * length ts + 1) (inv_idx W)), q2.
          rewrite nth_error_app2 by lia. rewrite Hhc. replace (3 * length ts + 2 - 3 * length ts) with 2 by lia.
          cbn. repeat (split; auto; try lia).
    - intros v x Hx. destruct (I2 _ _ Hx) as (B1 & B2 & B3 & B4). repeat (split; auto); try apply B4.
      (* used *)
      intros Hnil.
      assert (Hno : forall h i, nth_error (m_halfedges m') i = Some h -> he_vertex h <> v).
      { intros h i H1 H2. assert (In i (v_hes x)) as Hin by (apply B4; eauto). rewrite Hnil in Hin. contradiction. }
      destruct (Nat.lt_ge_cases v (length (m_points m))) as [Hl|Hg].
      + rewrite <- (i_nv _ Hi) in Hl. destruct (nth_error_get _ _ Hl) as (y & Hy).
        destruct (W6 _ _ Hy) as (_ & _ & Hne & _ & Hiff).
        destruct (v_hes y) as [|i r]; [contradiction|].
        destruct (proj1 (Hiff i) (or_introl eq_refl)) as (h & Hh1 & Hh2).
        apply (Hno h i); auto. rewrite Hh. auto using nth_error_app_some.
      + assert (v < length (m_points m) + length new) as Hu.
        { apply nth_error_lt in Hx. rewrite I1, Hp, app_length in Hx. exact Hx. }
        destruct (Hcov v (conj Hg Hu)) as [-> |[-> | ->]].
        * apply (Hno (linked (3 * length ts) (length (m_facets m)) v0 (3 * length ts + 1) (3 * length ts + 2) (inv_idx W)) (3 * length ts)); [|reflexivity].
          rewrite Hh, nth_error_app2, Hhc, Nat.sub_diag by lia. reflexivity.
        * apply (Hno (linked (3 * length ts + 1) (length (m_facets m)) v1 (3 * length ts + 2) (3 * length ts) (inv_idx W)) (3 * length ts + 1)); [|reflexivity].
          rewrite Hh, nth_error_app2, Hhc by lia. replace (3 * length ts + 1 - 3 * length ts) with 1 by lia. reflexivity.
        * apply (Hno (linked (3 * length ts + 2) (length (m_facets m)) v2 (3 * length ts) (3 * length ts + 1) (inv_idx W)) (3 * length ts + 2)); [|reflexivity].
          rewrite Hh, nth_error_app2, Hhc by lia. replace (3 * length ts + 2 - 3 * length ts) with 2 by lia. reflexivity.
    - intros p Hin. rewrite Hp in Hin. apply in_app_or in Hin as [Hin|Hin].
      + destruct (W8 _ Hin) as (u & c & Hu & Hc & ->). exists u, c. repeat split; auto. apply in_or_app; auto.
      + exists t. apply Hnew in Hin as [-> |[-> | ->]]; [exists 0|exists 1|exists 2];
          (split; [apply in_or_app; right; left; reflexivity|split; [lia|reflexivity]]).
  Qed.

  Lemma add_triangles_wf ts0 m ts : well_formed L a ts0 m -> 3 * (length ts0 + length ts) < W ->
    exists m', add_triangles L W dbg a m ts = Ok m' /\ well_formed L a (ts0 ++ ts) m' /\
      (forall i h, nth_error (m_halfedges m') i = Some h -> 3 * length ts0 <= i -> he_opp h = inv_idx W) /\
      (forall i, i < 3 * length ts0 -> nth_error (m_halfedges m') i = nth_error (m_halfedges m) i).
  Proof.
    revert ts0 m; induction ts as [|t ts IH]; intros ts0 m Hwf HW; cbn.
    - exists m; rewrite app_nil_r. split; [reflexivity|]. split; [exact Hwf|]. split; [|auto].
      intros i h Hh Hge. apply nth_error_lt in Hh. rewrite (wf_halfedge_count _ _ _ _ Hwf) in Hh. lia.
    - destruct (add_triangle_wf ts0 m t Hwf ltac:(cbn in HW; lia)) as (m1 & E1 & H1 & H2 & H3).
      rewrite E1; cbn [bind].
      destruct (IH (ts0 ++ [t]) m1 H1) as (m2 & E2 & G1 & G2 & G3).
      { rewrite app_length; cbn in *; lia. }
      exists m2; split; [exact E2|]. rewrite <- app_assoc in G1. split; [exact G1|].
      rewrite app_length in G2, G3; cbn in G2, G3.
      split.
      + intros i h Hh Hge. destruct (Nat.lt_ge_cases i (3 * (length ts0 + 1))) as [Hl|Hg].
        * rewrite G3 in Hh by lia. apply (H2 i h Hh Hge).
        * apply (G2 i h Hh); lia.
      + intros i Hl. rewrite G3 by lia. apply H3; lia.
  Qed.
End Proof.
