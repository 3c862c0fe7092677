(** * Normals, and the kd-tree index over the reals *)

From Coq Require Import List Arith Bool Lia Sorting.Sorted Sorting.Permutation Reals Lra.
From Verif Require Import Scalar Linal Result SpecReal VecR ModelKdTree SpecKdTree ProofKdTree ProofKdTreeUpdate
  ModelMesh SpecMesh ProofMesh ProofMeshOpp ProofMeshValid.
Import ListNotations.

Local Arguments Nat.ltb _ _ : simpl never.
Local Arguments Nat.leb _ _ : simpl never.
Local Arguments Nat.eqb _ _ : simpl never.
Local Arguments Nat.modulo _ _ : simpl never.
Local Arguments Nat.mul _ _ : simpl never.

(** a query at a stored point finds it *)
Lemma nearest_stored_R M SZ (t : @tree (RS M) 3 (list nat)) k (q : vec (RS M) 3) :
  ordered 3 SZ 0 t -> In q (tpts 3 t) ->
  exists b, nearest SZ (mkKd t k) q = Ok b /\ b_point b = q.
Proof.
  intros Ho Hin. unfold nearest. cbn [root]. destruct t as [|p v l r]; [destruct Hin|].
  eexists; split; [reflexivity|].
  set (b0 := @mkBest (RS M) 3 (list nat) [] p v (@kd_distance (RS M) 3 q p)).
  set (b := nearestHelper 3 SZ (Node p v l r) [] q b0 0).
  assert (Hd : b_dist b = rdist (b_point b) q).
  { destruct (nearest_from 3 SZ (Node p v l r) [] q b0 0) as [E|[_ E]]; fold b in E.
    - rewrite E. unfold b0; cbn [b_dist b_point]. rewrite kd_distance_R. apply rdist_sym.
    - rewrite E. apply kd_distance_R. }
  destruct (nearest_min (S := RS M) 3 (P := list nat) SZ (fun _ => True) (fun _ => True) q) with
    (t := Node p v l r) (here := @nil bool) (b := b0) (d := 0%nat) as (_ & _ & Hm); auto.
  - unfold sle; cbn; intros x b1 c _ _ _ A B. apply Rltb_false in A, B. apply Rltb_false. lra.
  - unfold sle; cbn; intros x b1 _ _ A. apply Rltb_true in A. apply Rltb_false. lra.
  - unfold sle; cbn; intros x _. apply Rltb_false. lra.
  - intros d p' x' bd _ _ _ A B. unfold sle. rewrite kd_distance_R. apply Rltb_false. eapply prune_R; eauto.
  - specialize (Hm q Hin). unfold sle in Hm. fold b in Hm. rewrite kd_distance_R, Hd, rdist_self in Hm.
    apply Rltb_false in Hm. pose proof (rdist_nonneg (b_point b) q).
    apply rdist_zero. lra.
Qed.

(** ** Facet normals *)
Section Facet.
  Context {S : Scalar} (L : Linal S) (a : addr).
  Context (ts : list (triangle S)) (m : mesh S) (Hwf : well_formed L a ts m).

  Lemma facet_normal_corners k f t : nth_error (m_facets m) k = Some f -> nth_error ts k = Some t ->
    exists p0 p1 p2 : point S, In p0 (m_points m) /\ In p1 (m_points m) /\ In p2 (m_points m) /\
      stands_for L p0 (corner t 0) /\ stands_for L p1 (corner t 1) /\ stands_for L p2 (corner t 2) /\
      calc_facet_normal (only a m) f = Ok (normalize (cross (vsub p1 p0) (vsub p2 p1))).
  Proof.
    intros Hf Ht. destruct (wf_facet _ _ _ _ Hwf _ _ Hf) as (F1 & F2).
    destruct (wf_halfedge _ _ _ _ Hwf _ t 0 Ht ltac:(lia)) as (h0 & p0 & A1 & A2 & A3 & A4 & A5 & A6 & A7 & A8).
    destruct (wf_halfedge _ _ _ _ Hwf _ t 1 Ht ltac:(lia)) as (h1 & p1 & B1 & B2 & B3 & B4 & B5 & B6 & B7 & B8).
    destruct (wf_halfedge _ _ _ _ Hwf _ t 2 Ht ltac:(lia)) as (h2 & p2 & C1 & C2 & C3 & C4 & C5 & C6 & C7 & C8).
    change ((0 + 1) mod 3) with 1 in A5. change ((1 + 1) mod 3) with 2 in B5.
    rewrite Nat.add_0_r in A1.
    assert (G : forall h p, nth_error (m_points m) (he_vertex h) = Some p -> he_ptr h = Some a ->
              exists u, getVertex (only a m) h = Ok u /\ getVector (only a m) u = Ok p).
    { intros h p Hp Hh. pose proof (nth_error_lt _ _ _ Hp) as L1. rewrite <- (wf_vertex_count _ _ _ _ Hwf) in L1.
      destruct (nth_error_get _ _ L1) as (u & Hu). destruct (wf_vertex _ _ _ _ Hwf _ _ Hu) as (U1 & U2 & _).
      exists u. unfold getVertex, getVector. rewrite Hh, deref_only. cbn [bind].
      rewrite (at_Ok _ _ _ Hu). split; [reflexivity|]. rewrite U2, deref_only. cbn [bind].
      unfold mesh_getVector. rewrite U1. apply at_Ok; exact Hp. }
    destruct (G h0 p0 A7 A4) as (u0 & E0 & V0). destruct (G h1 p1 B7 B4) as (u1 & E1 & V1).
    destruct (G h2 p2 C7 C4) as (u2 & E2 & V2).
    exists p0, p1, p2. split; [eapply nth_error_In; eassumption|]. split; [eapply nth_error_In; eassumption|].
    split; [eapply nth_error_In; eassumption|]. repeat (split; [assumption|]).
    unfold calc_facet_normal, facet_getHalfedge. rewrite F2, deref_only. cbn [bind].
    rewrite F1, (at_Ok _ _ _ A1). cbn [bind].
    unfold getNext at 1. rewrite A4, deref_only. cbn [bind]. rewrite A5, (at_Ok _ _ _ B1). cbn [bind].
    rewrite E0. cbn [bind]. rewrite V0. cbn [bind]. rewrite E1. cbn [bind]. rewrite V1. cbn [bind].
    unfold getNextVertex, getNext. rewrite B4, deref_only. cbn [bind]. rewrite B5, (at_Ok _ _ _ C1). cbn [bind].
    rewrite E2. cbn [bind]. rewrite V2. reflexivity.
  Qed.
End Facet.

Local Open Scope R_scope.

Lemma cross_R M (u v : vec R 3) : @cross (RS M) u v = rcross u v.
Proof. destruct u as (? & ? & ? & []), v as (? & ? & ? & []). reflexivity. Qed.

Ltac v3 := repeat match goal with u : vec R 3 |- _ => destruct u as (? & ? & ? & []) end;
  cbn [rdot rcross rsub radd rscale vmap vmap2 fst snd mk3].

Lemma rcross_orth_l (u v : vec R 3) : rdot (rcross u v) u = 0.
Proof. v3. ring. Qed.
Lemma rcross_orth_r (u v : vec R 3) : rdot (rcross u v) v = 0.
Proof. v3. ring. Qed.
Lemma rcross_shift (p0 p1 p2 : vec R 3) :
  rcross (rsub p1 p0) (rsub p2 p1) = rcross (rsub p1 p0) (rsub p2 p0).
Proof. v3. unfold mk3. repeat (apply f_equal2; [ring|]). reflexivity. Qed.

Lemma normalize_nonzero (v : vec R 3) : v <> rzero -> 0 < / rnorm v.
Proof.
  intros H. apply Rinv_0_lt_compat. pose proof (rnorm_nonneg v). destruct (Req_dec (rnorm v) 0) as [E|E]; [|lra].
  apply rnorm_zero in E. contradiction.
Qed.

Lemma unit_normal_ok M (p0 p1 p2 : vec R 3) : rcross (rsub p1 p0) (rsub p2 p0) <> rzero ->
  unit_normal (@normalize (RS M) 3 (cross (@vsub (RS M) 3 p1 p0) (@vsub (RS M) 3 p2 p1))) p0 p1 p2.
Proof.
  intros H. rewrite cross_R, !vsub_R, normalize_R, rcross_shift. unfold unit_normal.
  set (c := rcross (rsub p1 p0) (rsub p2 p0)) in *.
  pose proof (normalize_nonzero c H).
  split; [apply rnorm_normalize, H|]. rewrite !rdot_scale_l. unfold c at 2 4.
  rewrite rcross_orth_l, rcross_orth_r. split; [ring|]. split; [ring|].
  apply Rmult_lt_0_compat; [assumption|]. pose proof (rdot_self_nonneg c).
  destruct (Req_dec (rdot c c) 0) as [E|E]; [|lra]. apply rdot_self_zero in E. contradiction.
Qed.

Lemma normalize_unit M (v : vec R 3) : rnorm v = 1 -> @normalize (RS M) 3 v = v.
Proof. intros H. rewrite normalize_R, H, Rinv_1. apply rscale_1. Qed.

(** decomposition of a vector along u, w and their cross product *)
Lemma rcross_decompose (u w x y : vec R 3) :
  rdot (rcross u w) (rcross u w) * rdot x y =
  rdot x (rcross u w) * rdot (rcross u w) y +
  (rdot x u * rdot w w - rdot x w * rdot u w) * rdot u y +
  (rdot x w * rdot u u - rdot x u * rdot u w) * rdot w y.
Proof. v3. ring. Qed.

(** the unit normal is determined by the triangle *)
Lemma unit_normal_unique (n n' p0 p1 p2 : vec R 3) :
  unit_normal n p0 p1 p2 -> unit_normal n' p0 p1 p2 -> n = n'.
Proof.
  intros (A1 & A2 & A3 & A4) (B1 & B2 & B3 & B4).
  assert (Hn : forall v : vec R 3, rnorm v = 1 -> rdot v v = 1).
  { intros v Hv. rewrite <- rnorm_sq, Hv. ring. }
  apply Hn in A1, B1. set (u := rsub p1 p0) in *. set (w := rsub p2 p0) in *. set (c := rcross u w) in *.
  assert (K : forall x : vec R 3, rdot x u = 0 -> rdot x w = 0 ->
    forall y : vec R 3, rdot c c * rdot x y = rdot x c * rdot c y).
  { intros x Hu Hw y. unfold c. rewrite rcross_decompose, Hu, Hw. ring. }
  pose proof (K n A2 A3 n) as K1. pose proof (K n' B2 B3 n') as K2. pose proof (K n A2 A3 n') as K3.
  rewrite A1 in K1. rewrite B1 in K2. rewrite (rdot_comm c n) in K1. rewrite (rdot_comm c n') in K2, K3.
  assert (E : rdot n c = rdot n' c) by (apply sq_eq; lra).
  assert (Hc : 0 < rdot c c).
  { pose proof (rdot_self_nonneg c). destruct (Req_dec (rdot c c) 0) as [E0|E0]; [|lra].
    apply rdot_self_zero in E0. rewrite E0, rdot_zero_r in A4. lra. }
  apply eq_by_dot. rewrite rdot_sub_l, !rdot_sub_r, A1, B1, (rdot_comm n' n).
  assert (rdot n n' = 1) by nra. lra.
Qed.

(** ** Vertex normals *)
Section Vertex.
  Context (M : R) (L : Linal (RS M)) (HL : veq_exact L).

  Definition lex_le (x y : vec R 3) : Prop := @lex_lt (RS M) y x = false.

  Lemma lex_lt_iff (x y : vec R 3) : @lex_lt (RS M) x y = true <->
    let '(a, (b, (c, _))) := x in let '(a', (b', (c', _))) := y in
    a < a' \/ (a = a' /\ b < b') \/ (a = a' /\ b = b' /\ c < c').
  Proof.
    destruct x as (a & b & c & []), y as (a' & b' & c' & []). cbn.
    rewrite !orb_true_iff, !andb_true_iff, !Rltb_true, !Reqb_true. tauto.
  Qed.
  Lemma lex_le_iff (x y : vec R 3) : lex_le x y <->
    let '(a, (b, (c, _))) := x in let '(a', (b', (c', _))) := y in
    a < a' \/ (a = a' /\ b < b') \/ (a = a' /\ b = b' /\ c <= c').
  Proof.
    unfold lex_le. rewrite <- not_true_iff_false, lex_lt_iff.
    destruct x as (a & b & c & []), y as (a' & b' & c' & []).
    destruct (Rtotal_order a a') as [|[|]], (Rtotal_order b b') as [|[|]], (Rle_lt_dec c c'); split; intros; try lra;
      intuition lra.
  Qed.
  Lemma lex_le_antisym x y : lex_le x y -> lex_le y x -> x = y.
  Proof.
    rewrite !lex_le_iff. destruct x as (a & b & c & []), y as (a' & b' & c' & []). intros H1 H2.
    assert (a = a') by lra. assert (b = b') by lra. assert (c = c') by lra. congruence.
  Qed.
  Lemma lex_le_trans x y z : lex_le x y -> lex_le y z -> lex_le x z.
  Proof.
    rewrite !lex_le_iff. destruct x as (a & b & c & []), y as (a' & b' & c' & []), z as (a2 & b2 & c2 & []). intros H1 H2.
    destruct (Rtotal_order a a2) as [|[|]], (Rtotal_order b b2) as [|[|]]; lra.
  Qed.

  Lemma ins_sorted_spec (x : vec R 3) l : StronglySorted lex_le l ->
    StronglySorted lex_le (ins_sorted (@lex_lt (RS M)) x l) /\ Permutation (x :: l) (ins_sorted (@lex_lt (RS M)) x l).
  Proof.
    induction 1 as [|y l Hs (IH1 & IH2) Hy]; cbn [ins_sorted].
    - split; [repeat constructor|reflexivity].
    - destruct (lex_lt y x) eqn:E.
      + assert (Hyx : lex_le y x).
        { apply lex_lt_iff in E. apply lex_le_iff. destruct x as (a & b & c & []), y as (a' & b' & c' & []). lra. }
        split.
        * constructor; [exact IH1|]. eapply Permutation_Forall; [exact IH2|]. constructor; assumption.
        * rewrite perm_swap. constructor. exact IH2.
      + split; [|reflexivity]. constructor; [constructor; assumption|]. constructor; [exact E|].
        eapply Forall_impl; [|exact Hy]. intros z Hz. exact (lex_le_trans _ _ _ E Hz).
  Qed.
  Lemma std_sort_spec (l : list (vec R 3)) :
    StronglySorted lex_le (std_sort (@lex_lt (RS M)) l) /\ Permutation l (std_sort (@lex_lt (RS M)) l).
  Proof.
    induction l as [|x l (IH1 & IH2)]; cbn [std_sort fold_right]; [split; constructor|].
    destruct (ins_sorted_spec x _ IH1) as (A & B). split; [exact A|].
    etransitivity; [|exact B]. constructor. exact IH2.
  Qed.

  Lemma std_unique_from_spec (l : list (vec R 3)) : forall x, StronglySorted lex_le (x :: l) ->
    NoDup (std_unique_from (@veq (RS M) L 3) x l) /\
    forall z, In z (std_unique_from (@veq (RS M) L 3) x l) <-> In z (x :: l).
  Proof.
    induction l as [|y l IH]; intros x Hs; cbn [std_unique_from].
    - split; [repeat constructor; intros []|reflexivity].
    - apply StronglySorted_inv in Hs as (Hs & Hx). pose proof Hs as Hs'.
      apply StronglySorted_inv in Hs' as (Hs2 & Hy). inversion Hx as [|? ? Hxy Hxl]; subst.
      destruct (veq L x y) eqn:E.
      + apply HL in E. subst y. destruct (IH x Hs) as (A & B). split; [exact A|].
        intros z. rewrite B. cbn. tauto.
      + destruct (IH y Hs) as (A & B). split.
        * constructor; [|exact A]. rewrite B. intros Hin.
          assert (E' : x = y).
          { destruct Hin as [->|Hin]; [reflexivity|]. eapply Forall_forall in Hin; [|exact Hy].
            apply lex_le_antisym; assumption. }
          subst y. assert (veq L x x = true) by (apply HL; reflexivity). congruence.
        * intros z. cbn. rewrite B. cbn. tauto.
  Qed.

  Lemma std_unique_spec (l : list (vec R 3)) :
    NoDup (std_unique (@veq (RS M) L 3) (std_sort (@lex_lt (RS M)) l)) /\
    forall z, In z (std_unique (@veq (RS M) L 3) (std_sort (@lex_lt (RS M)) l)) <-> In z l.
  Proof.
    destruct (std_sort_spec l) as (A & B). unfold std_unique.
    destruct (std_sort (@lex_lt (RS M)) l) as [|x r] eqn:E.
    - split; [constructor|]. intros z. apply Permutation_sym, Permutation_nil in B. subst l. reflexivity.
    - destruct (std_unique_from_spec r x A) as (C & D). split; [exact C|].
      intros z. rewrite D. split; apply Permutation_in; [apply Permutation_sym|]; exact B.
  Qed.

  Lemma fold_vadd_rsum (l : list (vec R 3)) : forall z,
    fold_left (@vadd (RS M) 3) l z = radd z (rsum l).
  Proof.
    induction l as [|x l IH]; intros z; cbn [fold_left rsum fold_right]; [rewrite radd_zero_r; reflexivity|].
    rewrite IH, vadd_R. unfold rsum. rewrite radd_assoc. reflexivity.
  Qed.
  Lemma rsum_perm (l l' : list (vec R 3)) : Permutation l l' -> rsum l = rsum l'.
  Proof.
    induction 1 as [|x l l' _ IH|x y l|l l1 l2 _ IH1 _ IH2]; cbn [rsum fold_right] in *.
    - reflexivity.
    - unfold rsum in IH. rewrite IH. reflexivity.
    - rewrite !radd_assoc, (radd_comm y x). reflexivity.
    - congruence.
  Qed.

  Context (a : addr) (ts : list (triangle (RS M))) (m : mesh (RS M)) (Hwf : well_formed L a ts m).
  Context (Hnd : forall t, In t ts ->
     rcross (rsub (corner t 1) (corner t 0)) (rsub (corner t 2) (corner t 0)) <> (@rzero 3)).

  Lemma facet_normal_R k f t : nth_error (m_facets m) k = Some f -> nth_error ts k = Some t ->
    exists n, calc_facet_normal (only a m) f = Ok n /\ unit_normal n (corner t 0) (corner t 1) (corner t 2).
  Proof.
    intros Hf Ht. destruct (facet_normal_corners L a ts m Hwf k f t Hf Ht) as (p0 & p1 & p2 & _ & _ & _ & S0 & S1 & S2 & E).
    assert (X : forall p q : point (RS M), stands_for L p q -> p = q).
    { intros p q [H|H]; [exact H|]. apply HL; exact H. }
    apply X in S0, S1, S2. subst p0 p1 p2. eexists; split; [exact E|].
    apply unit_normal_ok. apply Hnd. eapply nth_error_In; eauto.
  Qed.

  Lemma vertex_normal_ds v x : nth_error (m_vertices m) v = Some x ->
    exists n (ds : list (vec R 3)), vertex_normal L (only a m) x = Ok n /\ NoDup ds /\
        (forall d, In d ds <-> exists k t c h, nth_error ts k = Some t /\ (c < 3)%nat /\
            nth_error (m_halfedges m) (3 * k + c) = Some h /\ he_vertex h = v /\
            unit_normal d (corner t 0) (corner t 1) (corner t 2)) /\
        n = rscale (/ rnorm (rsum ds)) (rsum ds).
  Proof.
    intros Hv. destruct (calc_vertex_facets_ok L a ts m Hwf v x Hv) as (ks & fs & E & H2 & Hs & Hin).
    unfold vertex_normal. rewrite E. cbn [bind].
    assert (Hns : exists ns, mapM (fun f => let* n := calc_facet_normal (only a m) f in Ok (normalize n)) fs = Ok ns /\
      Forall2 (fun k n => exists t, nth_error ts k = Some t /\ unit_normal n (corner t 0) (corner t 1) (corner t 2)) ks ns).
    { clear Hin Hs E. induction H2 as [|k f ks fs Hf _ (ns & I1 & I2)].
      - exists []; split; [reflexivity|constructor].
      - pose proof (nth_error_lt _ _ _ Hf) as Hk. rewrite (wf_facet_count _ _ _ _ Hwf) in Hk.
        destruct (nth_error_get _ _ Hk) as (t & Ht).
        destruct (facet_normal_R k f t Hf Ht) as (n & En & Hn).
        exists (n :: ns). split.
        + cbn [mapM]. rewrite En. cbn [bind]. rewrite I1. cbn [bind]. rewrite normalize_unit by apply Hn. reflexivity.
        + constructor; eauto. }
    destruct Hns as (ns & E1 & HF). rewrite E1. cbn [bind].
    destruct (std_unique_spec ns) as (U1 & U2).
    eexists. exists (std_unique (@veq (RS M) L 3) (std_sort (@lex_lt (RS M)) ns)). split; [reflexivity|].
    split; [exact U1|]. split.
    - intros d. rewrite U2. split.
      + intros Hd'. assert (G : exists k t, In k ks /\ nth_error ts k = Some t /\ unit_normal d (corner t 0) (corner t 1) (corner t 2)).
        { clear -HF Hd'. induction HF as [|k n ks ns (t & Ht & Hn) _ IH]; [destruct Hd'|].
          destruct Hd' as [->|Hd']; [exists k, t; cbn; auto|]. destruct (IH Hd') as (k' & t' & A & B); exists k', t'; cbn; auto. }
        destruct G as (k & t & Hk & Ht & Hn). apply Hin in Hk as (c & h & Hc & Hh & Hvh).
        exists k, t, c, h. auto.
      + intros (k & t & c & h & Ht & Hc & Hh & Hvh & Hn).
        assert (Hk : In k ks) by (apply Hin; eauto).
        assert (G : exists n, In n ns /\ unit_normal n (corner t 0) (corner t 1) (corner t 2)).
        { clear -HF Hk Ht. induction HF as [|k' n ks ns (t' & Ht' & Hn') _ IH]; [destruct Hk|].
          destruct Hk as [->|Hk].
          - exists n; split; [left; reflexivity|]. congruence.
          - destruct (IH Hk) as (n' & A & B). exists n'; split; [right; exact A|exact B]. }
        destruct G as (n & Hin' & Hn'). rewrite (unit_normal_unique _ _ _ _ _ Hn Hn'). exact Hin'.
    - rewrite fold_vadd_rsum, normalize_R.
      assert (Ez : forall s : vec R 3, radd (mk3 0 0 0) s = s).
      { intros s. rewrite radd_comm. apply (radd_zero_r s). }
      cbn [s0 RS]. rewrite Ez. reflexivity.
  Qed.

  Lemma vertex_normal_R v x : nth_error (m_vertices m) v = Some x ->
    exists n, vertex_normal L (only a m) x = Ok n /\
      forall ds : list (vec R 3), NoDup ds ->
        (forall d, In d ds <-> exists k t c h, nth_error ts k = Some t /\ (c < 3)%nat /\
            nth_error (m_halfedges m) (3 * k + c) = Some h /\ he_vertex h = v /\
            unit_normal d (corner t 0) (corner t 1) (corner t 2)) ->
        n = rscale (/ rnorm (rsum ds)) (rsum ds).
  Proof.
    intros Hv. destruct (vertex_normal_ds v x Hv) as (n & ds0 & E & N0 & I0 & En). exists n. split; [exact E|].
    intros ds Hd Hds. assert (P : Permutation ds0 ds).
    { apply NoDup_Permutation; auto. intros d. rewrite I0, Hds. reflexivity. }
    rewrite <- (rsum_perm _ _ P). exact En.
  Qed.

  Lemma rsum_dot_pos (ds : list (vec R 3)) w : ds <> [] -> (forall d, In d ds -> 0 < rdot d w) -> 0 < rdot (rsum ds) w.
  Proof.
    assert (G : forall l, (forall d, In d l -> 0 < rdot d w) -> 0 <= rdot (rsum l) w).
    { induction l as [|d l IH]; intros H; cbn [rsum fold_right]; [rewrite rdot_zero_l; lra|].
      rewrite rdot_add_l. pose proof (H d (or_introl eq_refl)). assert (0 <= rdot (rsum l) w) by (apply IH; intros; apply H; right; assumption).
      unfold rsum in *. lra. }
    destruct ds as [|d l]; [congruence|]. intros _ H. cbn [rsum fold_right]. rewrite rdot_add_l.
    pose proof (H d (or_introl eq_refl)). pose proof (G l (fun e He => H e (or_intror He))). unfold rsum in *. lra.
  Qed.

  (** at a vertex all of whose facets look to the side of [w] the normal is a unit vector that looks to that side *)
  Lemma vertex_normal_side v x w : nth_error (m_vertices m) v = Some x ->
    (forall k t c h d, nth_error ts k = Some t -> (c < 3)%nat ->
       nth_error (m_halfedges m) (3 * k + c) = Some h -> he_vertex h = v ->
       unit_normal d (corner t 0) (corner t 1) (corner t 2) -> 0 < rdot d w) ->
    exists n : vec R 3, vertex_normal L (only a m) x = Ok n /\ rnorm n = 1 /\ 0 < rdot n w.
  Proof.
    intros Hv Hw. destruct (vertex_normal_ds v x Hv) as (n & ds & E & N0 & I0 & En). exists n. split; [exact E|].
    assert (Hne : ds <> []).
    { destruct (wf_vertex _ _ _ _ Hwf _ _ Hv) as (_ & _ & V3 & _ & V5).
      destruct (v_hes x) as [|i r]; [congruence|]. destruct (proj1 (V5 i) (or_introl eq_refl)) as (h & Hh & Hvh).
      pose proof (nth_error_lt _ _ _ Hh) as Hi. rewrite (wf_halfedge_count _ _ _ _ Hwf) in Hi.
      set (k := (i / 3)%nat). set (c := (i mod 3)%nat).
      assert (Hc : (c < 3)%nat) by (apply Nat.mod_upper_bound; lia).
      assert (Ei : i = (3 * k + c)%nat) by (apply Nat.div_mod; lia).
      destruct (nth_error_get ts k) as (t & Ht); [lia|].
      destruct (nth_error_get (m_facets m) k) as (f & Hf); [rewrite (wf_facet_count _ _ _ _ Hwf); lia|].
      destruct (facet_normal_R k f t Hf Ht) as (d & _ & Hd).
      intros Eds. assert (X : In d ds) by (apply I0; exists k, t, c, h; rewrite <- Ei; auto).
      rewrite Eds in X. destruct X. }
    assert (Hpos : 0 < rdot (rsum ds) w).
    { apply rsum_dot_pos; [exact Hne|]. intros d Hd. apply I0 in Hd as (k & t & c & h & A & B & C & D & F). eauto. }
    assert (Hnz : rsum ds <> rzero) by (intros Z; rewrite Z, rdot_zero_l in Hpos; lra).
    subst n. split; [apply rnorm_normalize, Hnz|]. rewrite rdot_scale_l. apply Rmult_lt_0_compat; [apply normalize_nonzero, Hnz|exact Hpos].
  Qed.
End Vertex.
