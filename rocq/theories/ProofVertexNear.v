(** * Lemmas: vertex normals of tessellations approximate those of the shapes *)

From Coq Require Import List Arith Bool Lia Reals Lra ZArith Permutation Sorted.
From Verif Require Import Scalar Linal Result SpecReal VecR VecLemmas SpecTransform SpecFloatErr SpecFloatNormal SpecVertexOut SpecVertexNear
  ModelKdTree SpecKdTree ModelShapes ModelTransform ModelMesh SpecMesh ModelTess SpecTess ProofTransform
  ProofMesh ProofMeshOpp ProofMeshValid ProofMeshNormal ProofTessComb ProofTessConn ProofTessMesh ProofTessSphere ProofTessRound ProofTess ProofVolume ProofConvex
  ProofFloatNormal ProofVertexOut.
Import ListNotations.
Local Open Scope R_scope.

(** ** The corners and the normal of a facet *)
Lemma triangle_points {S : Scalar} (L : Linal S) a ts (m : mesh S) k f q0 q1 q2 : well_formed L a ts m -> nth_error (m_facets m) k = Some f ->
  facet_triangle m f = Some (q0, q1, q2) ->
  facet_points m k q0 q1 q2 /\
  forall i h q, nth_error (m_halfedges m) i = Some h -> he_facet h = k -> nth_error (m_points m) (he_vertex h) = Some q -> q = q0 \/ q = q1 \/ q = q2.
Proof.
  intros Hw Hf Et.
  assert (Hk : (k < length ts)%nat) by (rewrite <- (wf_facet_count _ _ _ _ Hw); eapply nth_error_lt; eauto).
  destruct (nth_error_get _ _ Hk) as (t & Ht). destruct (wf_facet _ _ _ _ Hw k f Hf) as (E0 & _).
  destruct (wf_halfedge _ _ _ _ Hw k _ 0%nat Ht ltac:(lia)) as (h0 & p0 & A0 & _ & _ & _ & N0 & _ & P0 & _).
  destruct (wf_halfedge _ _ _ _ Hw k _ 1%nat Ht ltac:(lia)) as (h1 & p1 & A1 & _ & _ & _ & N1 & _ & P1 & _).
  destruct (wf_halfedge _ _ _ _ Hw k _ 2%nat Ht ltac:(lia)) as (h2 & p2 & A2 & _ & _ & _ & N2 & _ & P2 & _).
  change ((0 + 1) mod 3)%nat with 1%nat in N0. change ((1 + 1) mod 3)%nat with 2%nat in N1. rewrite Nat.add_0_r in A0.
  unfold facet_triangle in Et. rewrite E0, A0, N0, A1, N1, A2, P0, P1, P2 in Et. injection Et as <- <- <-.
  split; [exists h0, h1, h2; repeat (split; [assumption|]); assumption|].
  intros i h q Hh Hfk Hq.
  assert (Hi : (i < 3 * length ts)%nat) by (rewrite <- (wf_halfedge_count _ _ _ _ Hw); eapply nth_error_lt; eauto).
  assert (Hc3 : (i mod 3 < 3)%nat) by (apply Nat.mod_upper_bound; lia).
  destruct (nth_error_get ts (i / 3)) as (t' & Ht'); [apply Nat.div_lt_upper_bound; lia|].
  destruct (wf_halfedge _ _ _ _ Hw _ _ _ Ht' Hc3) as (h' & p & Hh' & _ & Hf' & _).
  assert (Di : (3 * (i / 3) + i mod 3 = i)%nat) by (symmetry; apply Nat.div_mod; lia).
  rewrite Di in Hh'. assert (h' = h) by congruence. subst h'. assert (Ek : (i / 3 = k)%nat) by congruence. rewrite Ek in Di.
  destruct (i mod 3)%nat as [|[|[|j]]]; [| | |lia]; rewrite <- Di in Hh; [rewrite Nat.add_0_r, A0 in Hh|rewrite A1 in Hh|rewrite A2 in Hh]; injection Hh as <-.
  - left. congruence.
  - right. left. congruence.
  - right. right. congruence.
Qed.

Lemma cross_shift (p0 p1 p2 : vec R 3) : rcross (rsub p1 p0) (rsub p2 p1) = rcross (rsub p1 p0) (rsub p2 p0).
Proof. v3. repeat (f_equal; try ring). Qed.
Lemma cross_side1 (p0 p1 p2 : vec R 3) : rdot (rcross (rsub p1 p0) (rsub p2 p0)) (rsub p1 p0) = 0.
Proof. v3. ring. Qed.
Lemma cross_side2 (p0 p1 p2 : vec R 3) : rdot (rcross (rsub p1 p0) (rsub p2 p0)) (rsub p2 p0) = 0.
Proof. v3. ring. Qed.

(** the normal of a facet that is not degenerate *)
Lemma facet_unit M (L : Linal (RS M)) a ts (m : mesh (RS M)) k f (q0 q1 q2 : vec R 3) : well_formed L a ts m -> nth_error (m_facets m) k = Some f ->
  facet_triangle m f = Some (q0, q1, q2) -> let C := rcross (rsub q1 q0) (rsub q2 q0) in C <> rzero ->
  exists n : vec R 3, calc_facet_normal (only a m) f = Ok n /\ rnorm n = 1 /\ n = rscale (/ rnorm C) C /\ 0 < / rnorm C /\
    (forall i h q, nth_error (m_halfedges m) i = Some h -> he_facet h = k -> nth_error (m_points m) (he_vertex h) = Some q -> q = q0 \/ q = q1 \/ q = q2) /\
    forall c i h q, nth_error (m_halfedges m) i = Some h -> he_facet h = k -> nth_error (m_points m) (he_vertex h) = Some q -> rdot n (rsub q c) = rdot n (rsub q0 c).
Proof.
  intros Hw Hf Et C HC. destruct (triangle_points L a ts m k f q0 q1 q2 Hw Hf Et) as (Hp & Hq).
  exists (rscale (/ rnorm C) C). assert (C0 : 0 < / rnorm C) by (apply normalize_nonzero, HC).
  split; [rewrite (facet_normal_points L a ts m Hw k f q0 q1 q2 Hf Hp); f_equal; rewrite normalize_R; change (@cross (RS M) (@vsub (RS M) 3 q1 q0) (@vsub (RS M) 3 q2 q1)) with (rcross (rsub q1 q0) (rsub q2 q1)); rewrite cross_shift; reflexivity|].
  split; [apply rnorm_normalize, HC|]. split; [reflexivity|]. split; [exact C0|]. split; [exact Hq|].
  intros c i h q Hh Hk Hv.
  assert (Z1 : rdot (rscale (/ rnorm C) C) (rsub q1 q0) = 0) by (rewrite rdot_scale_l; unfold C; rewrite cross_side1; ring).
  assert (Z2 : rdot (rscale (/ rnorm C) C) (rsub q2 q0) = 0) by (rewrite rdot_scale_l; unfold C; rewrite cross_side2; ring).
  assert (T : forall x : vec R 3, rdot (rscale (/ rnorm C) C) (rsub x c) = rdot (rscale (/ rnorm C) C) (rsub x q0) + rdot (rscale (/ rnorm C) C) (rsub q0 c)).
  { intros x. generalize (rscale (/ rnorm C) C). intros n. clear. v3. ring. }
  destruct (Hq i h q Hh Hk Hv) as [-> | [-> | ->]]; [reflexivity| |]; rewrite T, ?Z1, ?Z2; ring.
Qed.

(** ** A vertex all of whose facets lean towards [w] *)
Lemma rsum_norm (l : list (vec R 3)) : (forall x, In x l -> rnorm x <= 1) -> rnorm (rsum l) <= INR (length l).
Proof.
  induction l as [|x l IH]; intros H; [cbn [length INR]; change (rsum []) with (@rzero 3); rewrite rnorm_rzero; lra|].
  cbn [length]. rewrite S_INR. change (rsum (x :: l)) with (radd x (rsum l)). pose proof (rnorm_triangle x (rsum l)). pose proof (H x (or_introl eq_refl)). pose proof (IH (fun y Hy => H y (or_intror Hy))). lra.
Qed.
Lemma rsum_lean (l : list (vec R 3)) w nu : (forall x, In x l -> nu <= rdot x w) -> INR (length l) * nu <= rdot (rsum l) w.
Proof.
  induction l as [|x l IH]; intros H; [cbn [length INR]; change (rsum []) with (@rzero 3); rewrite rdot_zero_l; lra|].
  cbn [length]. rewrite S_INR. change (rsum (x :: l)) with (radd x (rsum l)). rewrite rdot_add_l. pose proof (H x (or_introl eq_refl)). pose proof (IH (fun y Hy => H y (or_intror Hy))). lra.
Qed.

Lemma vertex_near M (L L' : Linal (RS M)) a ts (m : mesh (RS M)) v x (w : vec R 3) rho : well_formed L' a ts m -> nth_error (m_vertices m) v = Some x -> 0 < rho ->
  (forall k f i h, nth_error (m_facets m) k = Some f -> nth_error (m_halfedges m) i = Some h -> he_facet h = k -> he_vertex h = v ->
     exists n : vec R 3, calc_facet_normal (only a m) f = Ok n /\ rnorm n = 1 /\ rho <= rdot n w) ->
  exists n : vec R 3, vertex_normal L (only a m) x = Ok n /\ rnorm n = 1 /\ rho <= rdot n w.
Proof.
  intros Hw Hv Hrho HF. destruct (calc_vertex_facets_ok L' a ts m Hw v x Hv) as (ks & fs & E & H2 & _ & Hin).
  destruct (wf_vertex _ _ _ _ Hw v x Hv) as (_ & _ & V3 & _ & V5).
  set (nrm := fun f => let* n := calc_facet_normal (only a m) f in Ok (normalize n)).
  assert (FN : forall f, In f fs -> exists n : vec R 3, nrm f = Ok n /\ rnorm n = 1 /\ rho <= rdot n w).
  { intros f Hf. destruct (Forall2_in_r _ _ _ _ H2 Hf) as (k & Hk & Ek). destruct (proj1 (Hin k) Hk) as (c & h & C3 & A1 & A2).
    destruct (HF k f _ h Ek A1 (proj1 (halfedge_facet L' a ts m k c h Hw C3 A1)) A2) as (n & En & N1 & Hn).
    exists n. split; [unfold nrm; rewrite En; cbn [bind]; rewrite normalize_unit by exact N1; reflexivity|]. split; assumption. }
  destruct (mapM_total nrm fs) as (ns & En); [intros f Hf; destruct (FN f Hf) as (y & Ey & _); eauto|].
  set (ds := std_unique (@veq (RS M) L 3) (std_sort (@lex_lt (RS M)) ns) : list (vec R 3)).
  assert (Dn : forall d, In d ds -> rnorm d = 1 /\ rho <= rdot d w).
  { intros d Hd. apply std_unique_in, std_sort_in in Hd. destruct (mapM_in _ _ _ _ En Hd) as (f & Hf & Ef). destruct (FN f Hf) as (y & Ey & Hy). rewrite Ef in Ey. apply Ok_inj in Ey. subst y. exact Hy. }
  assert (Nd : ds <> []).
  { apply std_unique_length. intros Q. assert (Ls : length (std_sort (@lex_lt (RS M)) ns) = length fs) by (rewrite std_sort_length; exact (mapM_length _ _ _ En)).
    rewrite Q in Ls. assert (Lf : length fs = length (v_hes x)).
    { unfold calc_vertex_facets in E. destruct (calcHalfedges (only a m) x) as [hs| | | |] eqn:Eh; try discriminate E. cbn [bind] in E. apply mapM_length in E. unfold calcHalfedges in Eh. apply mapM_length in Eh. congruence. }
    destruct (v_hes x); [congruence|]. cbn in Ls, Lf. lia. }
  exists (@normalize (RS M) 3 (fold_left (@vadd (RS M) 3) ds (mk3 (@s0 (RS M)) s0 s0))). split; [unfold vertex_normal; rewrite E; cbn [bind]; fold nrm; rewrite En; reflexivity|].
  rewrite fold_vadd_rsum, normalize_R. assert (Ez : forall s : vec R 3, radd (mk3 0 0 0) s = s) by (intros s; rewrite radd_comm; apply (radd_zero_r s)).
  cbn [s0 RS]. rewrite Ez.
  assert (l1 : 1 <= INR (length ds)) by (apply (le_INR 1); destruct ds; [congruence|cbn; lia]).
  pose proof (rsum_lean ds w rho (fun d Hd => proj2 (Dn d Hd))) as Hpos. pose proof (rsum_norm ds (fun d Hd => Req_le _ _ (proj1 (Dn d Hd)))) as Hle.
  assert (P0 : rho <= INR (length ds) * rho) by (rewrite <- (Rmult_1_l rho) at 1; apply Rmult_le_compat_r; lra).
  assert (Hnz : rsum ds <> rzero) by (intros Z; rewrite Z, rdot_zero_l in Hpos; lra).
  split; [apply rnorm_normalize, Hnz|]. rewrite rdot_scale_l. pose proof (normalize_nonzero _ Hnz) as I0.
  assert (N0 : 0 < rnorm (rsum ds)). { apply Rinv_0_lt_compat in I0. rewrite Rinv_inv in I0. exact I0. }
  apply Rmult_le_reg_l with (rnorm (rsum ds)); [exact N0|]. rewrite <- Rmult_assoc, Rinv_r, Rmult_1_l by lra.
  eapply Rle_trans; [|exact Hpos]. apply Rmult_le_compat_r; lra.
Qed.

(** from single vertices to the list of normals *)
Lemma collect_normals M (L L' : Linal (RS M)) a ts (m : mesh (RS M)) (P : vec R 3 -> vec R 3 -> Prop) : well_formed L' a ts m ->
  (forall v x q, nth_error (m_vertices m) v = Some x -> nth_error (m_points m) v = Some q -> exists n : vec R 3, vertex_normal L (only a m) x = Ok n /\ rnorm n = 1 /\ P q n) ->
  vertex_normals L a m P.
Proof.
  intros Hw V. destruct (mapM_total (vertex_normal L (only a m)) (m_vertices m)) as (ns & En).
  { intros x Hx. destruct (In_nth_error _ _ Hx) as (v & Hv). destruct (nth_error_get (m_points m) v) as (q & Hq); [rewrite <- (wf_vertex_count _ _ _ _ Hw); eapply nth_error_lt; eauto|].
    destruct (V v x q Hv Hq) as (n & N & _). eauto. }
  exists ns. split; [exact En|]. split; [rewrite <- (wf_vertex_count _ _ _ _ Hw); exact (mapM_length _ _ _ En)|].
  intros v n q Hn Hq. destruct (mapM_nth _ _ _ _ _ En Hn) as (x & Hx & Ex). destruct (V v x q Hx Hq) as (n' & E' & R). rewrite Ex in E'. apply Ok_inj in E'. subst n'. exact R.
Qed.

(** ** Surfaces around a ball: the plane of a facet stays clear of it *)
Lemma plane_clear (o q0 q1 q2 : vec R 3) rho : 0 <= rho -> let C := rcross (rsub q1 q0) (rsub q2 q0) in C <> rzero ->
  (forall c, rdist c o <= rho -> 0 <= sixvol c q0 q1 q2) -> rho <= rdot (rscale (/ rnorm C) C) (rsub q0 o).
Proof.
  intros Hrho C HC H. set (n := rscale (/ rnorm C) C). assert (n1 : rnorm n = 1) by (apply rnorm_normalize, HC).
  assert (C0 : 0 < / rnorm C) by (apply normalize_nonzero, HC).
  pose proof (H (radd o (rscale rho n))) as K. rewrite <- behind_sixvol in K. fold C in K.
  assert (D : rdist (radd o (rscale rho n)) o <= rho).
  { unfold rdist. replace (rsub (radd o (rscale rho n)) o) with (rscale rho n) by (clear; v3; repeat (f_equal; try ring)). rewrite rnorm_scale, n1, Rabs_right by lra. lra. }
  specialize (K D). assert (Q : 0 <= rdot n (rsub q0 (radd o (rscale rho n)))) by (unfold n at 1; rewrite rdot_scale_l; apply Rmult_le_pos; lra).
  assert (nn : rdot n n = 1). { pose proof (rnorm_sq n) as Z. rewrite n1 in Z. lra. }
  replace (rdot n (rsub q0 (radd o (rscale rho n)))) with (rdot n (rsub q0 o) - rho * rdot n n) in Q; [rewrite nn in Q; lra|]. clear. v3. ring.
Qed.

(** two unit vectors with a large scalar product are near *)
Lemma unit_near (n w : vec R 3) k : rnorm n = 1 -> rnorm w = 1 -> k <= rdot n w -> rdist n w * rdist n w <= 2 * (1 - k).
Proof.
  intros Hn Hw H. unfold rdist. pose proof (rnorm_sq (rsub n w)) as Q. pose proof (rnorm_sq n) as Qn. pose proof (rnorm_sq w) as Qw. rewrite Hn in Qn. rewrite Hw in Qw.
  replace (rdot (rsub n w) (rsub n w)) with (rdot n n - 2 * rdot n w + rdot w w) in Q; [lra|]. clear. v3. ring.
Qed.

(** ** A vertex with exact comparison of the normals *)
Lemma Forall2_in_l {A B} (P : A -> B -> Prop) l l' x : Forall2 P l l' -> In x l -> exists y, In y l' /\ P x y.
Proof.
  induction 1 as [|z y l l' H _ IH]; intros Hx; [destruct Hx|]. destruct Hx as [E|Hx]; [subst z; exists y; split; [left; reflexivity|exact H]|].
  destruct (IH Hx) as (y' & A1 & A2). exists y'. split; [right; exact A1|exact A2].
Qed.
Lemma mapM_in_back {A B} (f : A -> res B) l : forall r x y, mapM f l = Ok r -> In x l -> f x = Ok y -> In y r.
Proof.
  induction l as [|z l IH]; cbn; intros r x y H Hx Ef; [destruct Hx|]. destruct (f z) as [b| | | |] eqn:Ez; try discriminate. cbn [bind] in H. destruct (mapM f l) as [s| | | |] eqn:E; try discriminate. cbn [bind] in H.
  apply Ok_inj in H. subst r. destruct Hx as [->|Hx]; [left; congruence|right; exact (IH _ _ _ eq_refl Hx Ef)].
Qed.
Lemma vertex_exact M (L L' : Linal (RS M)) a ts (m : mesh (RS M)) v x (ds : list (vec R 3)) : well_formed L' a ts m -> veq_exact L -> nth_error (m_vertices m) v = Some x ->
  NoDup ds -> rsum ds <> rzero ->
  (forall k f i h, nth_error (m_facets m) k = Some f -> nth_error (m_halfedges m) i = Some h -> he_facet h = k -> he_vertex h = v ->
     exists n : vec R 3, calc_facet_normal (only a m) f = Ok n /\ rnorm n = 1 /\ In n ds) ->
  (forall n, In n ds -> exists k f i h, nth_error (m_facets m) k = Some f /\ nth_error (m_halfedges m) i = Some h /\ he_facet h = k /\ he_vertex h = v /\
     calc_facet_normal (only a m) f = Ok n) ->
  vertex_normal L (only a m) x = Ok (rdirection (rsum ds)) /\ rnorm (rdirection (rsum ds)) = 1.
Proof.
  intros Hw HL Hv Nd Hnz HF HB. split; [|apply rnorm_normalize, Hnz].
  destruct (calc_vertex_facets_ok L' a ts m Hw v x Hv) as (ks & fs & E & H2 & _ & Hin).
  set (nrm := fun f => let* n := calc_facet_normal (only a m) f in Ok (normalize n)).
  assert (Inc : forall f, In f fs -> exists n : vec R 3, calc_facet_normal (only a m) f = Ok n /\ nrm f = Ok n /\ In n ds).
  { intros f Hf. destruct (Forall2_in_r _ _ _ _ H2 Hf) as (k & Hk & Ek). destruct (proj1 (Hin k) Hk) as (c & h & C3 & A1 & A2).
    destruct (HF k f _ h Ek A1 (proj1 (halfedge_facet L' a ts m k c h Hw C3 A1)) A2) as (n & En & N1 & Hn).
    exists n. split; [exact En|]. split; [|exact Hn]. unfold nrm. rewrite En. cbn [bind]. rewrite normalize_unit by exact N1. reflexivity. }
  destruct (mapM_total nrm fs) as (ns & En); [intros f Hf; destruct (Inc f Hf) as (y & _ & Ey & _); eauto|].
  destruct (std_unique_spec M L HL ns) as (U1 & U2).
  set (us := std_unique (@veq (RS M) L 3) (std_sort (@lex_lt (RS M)) ns) : list (vec R 3)) in *.
  assert (P : Permutation us ds).
  { apply NoDup_Permutation; [exact U1|exact Nd|]. intros d. rewrite U2. split; intros Hd.
    - destruct (mapM_in _ _ _ _ En Hd) as (f & Hf & Ef). destruct (Inc f Hf) as (y & _ & Ey & Hy). rewrite Ef in Ey. apply Ok_inj in Ey. subst y. exact Hy.
    - destruct (HB d Hd) as (k & f & i & h & Hf & Hh & Hk & Hhv & Ed).
      assert (Di : i = (3 * (i / 3) + i mod 3)%nat) by (apply Nat.div_mod; lia). pose proof Hh as Hh'. rewrite Di in Hh'.
      assert (C3 : (i mod 3 < 3)%nat) by (apply Nat.mod_upper_bound; lia).
      pose proof (proj1 (halfedge_facet L' a ts m _ _ h Hw C3 Hh')) as Ek. rewrite Hk in Ek.
      assert (Ik : In k ks) by (apply Hin; exists (i mod 3)%nat, h; split; [exact C3|]; split; [rewrite Ek; exact Hh'|exact Hhv]).
      destruct (Forall2_in_l _ _ _ _ H2 Ik) as (f' & If & Ef'). assert (f' = f) by congruence. subst f'.
      destruct (Inc f If) as (y & Ey & Ey' & _). rewrite Ed in Ey. apply Ok_inj in Ey. subst y.
      exact (mapM_in_back _ _ _ _ _ En If Ey'). }
  unfold vertex_normal. rewrite E. cbn [bind]. fold nrm. rewrite En. cbn [bind]. fold us. f_equal.
  rewrite fold_vadd_rsum, normalize_R. assert (Ez : forall s : vec R 3, radd (mk3 0 0 0) s = s) by (intros s; rewrite radd_comm; apply (radd_zero_r s)).
  cbn [s0 RS]. rewrite Ez, (rsum_perm _ _ P). reflexivity.
Qed.

(** ** Solids whose facet normals are known *)
Definition at_corner {V} (v : V) (t : V * V * V) : Prop := let '(x, y, z) := t in v = x \/ v = y \/ v = z.
Section Shape.
  Context (M : R) (L : Linal (RS M)) (W : nat) (dbg : bool) (self : addr) {V : Type} (ok : V -> Prop) (N : nat) (tris : list (V * V * V)) (pos : V -> vec R 3) (m : mesh (RS M)).
  Context (H : ProofTess.good_mesh M W dbg self ok N tris pos m).
  Context (Hinj : forall u v, ok u -> ok v -> pos u = pos v -> u = v) (Hcor : forall x y z, In (x, y, z) tris -> ok x /\ ok y /\ ok z).
  Context (nor : V * V * V -> vec R 3).
  Context (Hnor : forall x y z, In (x, y, z) tris -> rnorm (nor (x, y, z)) = 1 /\
    exists l, 0 < l /\ rcross (rsub (pos y) (pos z)) (rsub (pos x) (pos z)) = rscale l (nor (x, y, z))).

  Lemma scaled_unit (u C : vec R 3) l : rnorm u = 1 -> 0 < l -> C = rscale l u -> C <> rzero /\ rscale (/ rnorm C) C = u.
  Proof.
    intros Hu Hl ->. rewrite rnorm_scale, Hu, Rabs_right, Rmult_1_r by lra. split.
    - intros E. pose proof (f_equal rnorm E) as K. rewrite rnorm_scale, Hu, rnorm_rzero, Rabs_right in K by lra. lra.
    - destruct u as (u1 & u2 & u3 & []). cbn. repeat (apply f_equal2; [field; lra|]). reflexivity.
  Qed.

  Lemma shape_triangle k f x y z : nth_error (m_facets m) k = Some f -> In (x, y, z) tris -> facet_triangle m f = Some (pos z, pos y, pos x) ->
    calc_facet_normal (only self m) f = Ok (nor (x, y, z)) /\ rnorm (nor (x, y, z)) = 1 /\ facet_points m k (pos z) (pos y) (pos x) /\
    forall i h q, nth_error (m_halfedges m) i = Some h -> he_facet h = k -> nth_error (m_points m) (he_vertex h) = Some q -> exists v, at_corner v (x, y, z) /\ q = pos v.
  Proof.
    intros Hf Hin Et. pose proof H as (_ & _ & _ & _ & _ & _ & _ & _ & _ & _ & _ & _ & L2 & ts & Hw).
    destruct (Hnor x y z Hin) as (n1 & l & Hl & EC). destruct (scaled_unit _ _ l n1 Hl EC) as (HC & EU).
    destruct (facet_unit M L2 self ts m k f _ _ _ Hw Hf Et HC) as (n & En & _ & Dn & _ & Hq & _). rewrite Dn, EU in En.
    split; [exact En|]. split; [exact n1|]. split; [exact (proj1 (triangle_points L2 self ts m k f _ _ _ Hw Hf Et))|].
    intros i h q Hh Hk Hv. destruct (Hq i h q Hh Hk Hv) as [-> | [-> | ->]]; [exists z|exists y|exists x]; cbn; auto.
  Qed.
  Lemma shape_facet k f : nth_error (m_facets m) k = Some f -> exists t, In t tris /\ calc_facet_normal (only self m) f = Ok (nor t) /\ rnorm (nor t) = 1 /\
    forall i h q, nth_error (m_halfedges m) i = Some h -> he_facet h = k -> nth_error (m_points m) (he_vertex h) = Some q -> exists v, at_corner v t /\ q = pos v.
  Proof.
    intros Hf. pose proof H as (_ & _ & _ & _ & _ & _ & _ & _ & _ & _ & _ & Ht & _).
    assert (K : In (facet_triangle m f) (map (facet_triangle m) (m_facets m))) by apply in_map, (nth_error_In _ _ Hf).
    rewrite Ht in K. apply in_map_iff in K as (t & E & Hin). unfold solid_triangles in Hin. rewrite map_map in Hin. apply in_map_iff in Hin as ([[x y] z] & <- & Hin).
    destruct (shape_triangle k f x y z Hf Hin (eq_sym E)) as (A1 & A2 & _ & A3). exists (x, y, z). auto.
  Qed.
  Lemma corner_ok v t : In t tris -> at_corner v t -> ok v.
  Proof. destruct t as [[x y] z]. intros Hin Hc. destruct (Hcor x y z Hin) as (A & B & C). destruct Hc as [-> | [-> | ->]]; assumption. Qed.
  Lemma shape_incident v0 v t : ok v0 -> nth_error (m_points m) v = Some (pos v0) -> In t tris -> at_corner v0 t ->
    exists k f i h, nth_error (m_facets m) k = Some f /\ nth_error (m_halfedges m) i = Some h /\ he_facet h = k /\ he_vertex h = v /\ calc_facet_normal (only self m) f = Ok (nor t).
  Proof.
    intros Hv0 Hv Hin Hc. pose proof H as (_ & _ & _ & Hnd & _ & _ & _ & _ & _ & _ & _ & Ht & L2 & ts & Hw). destruct t as [[x y] z].
    assert (K : In (Some (pos z, pos y, pos x)) (map (facet_triangle m) (m_facets m))).
    { rewrite Ht. apply in_map. unfold solid_triangles. rewrite map_map. apply in_map_iff. exists (x, y, z). split; [reflexivity|exact Hin]. }
    apply in_map_iff in K as (f & E & Hf). destruct (In_nth_error _ _ Hf) as (k & Hk).
    destruct (shape_triangle k f x y z Hk Hin E) as (A1 & _ & (h0 & h1 & h2 & B0 & B1 & B2 & P0 & P1 & P2) & _).
    assert (G : forall c h, (c < 3)%nat -> nth_error (m_halfedges m) (3 * k + c) = Some h -> nth_error (m_points m) (he_vertex h) = Some (pos v0) ->
      exists k f i h, nth_error (m_facets m) k = Some f /\ nth_error (m_halfedges m) i = Some h /\ he_facet h = k /\ he_vertex h = v /\ calc_facet_normal (only self m) f = Ok (nor (x, y, z))).
    { intros c h C3 Hh Hp. exists k, f, (3 * k + c)%nat, h. split; [exact Hk|]. split; [exact Hh|]. split; [exact (proj1 (halfedge_facet L2 self ts m k c h Hw C3 Hh))|].
      split; [|exact A1]. apply (proj1 (NoDup_nth_error _) Hnd); [eapply nth_error_lt; exact Hp|congruence]. }
    destruct Hc as [-> | [-> | ->]]; [apply (G 2%nat h2)|apply (G 1%nat h1)|apply (G 0%nat h0)]; try lia; try assumption. rewrite Nat.add_0_r. exact B0.
  Qed.

  Lemma incident_corner v0 v k f i h : ok v0 -> nth_error (m_points m) v = Some (pos v0) -> nth_error (m_facets m) k = Some f -> nth_error (m_halfedges m) i = Some h -> he_facet h = k -> he_vertex h = v ->
    exists t, In t tris /\ at_corner v0 t /\ calc_facet_normal (only self m) f = Ok (nor t) /\ rnorm (nor t) = 1.
  Proof.
    intros Hv0 Hv Hf Hh Hk Hhv. destruct (shape_facet k f Hf) as (t & Hin & En & N1 & Hq). exists t. split; [exact Hin|]. split; [|split; assumption].
    destruct (Hq i h (pos v0) Hh Hk ltac:(rewrite Hhv; exact Hv)) as (u & Hu & Eu). rewrite (Hinj v0 u Hv0 (corner_ok u t Hin Hu) Eu). exact Hu.
  Qed.

  Lemma shape_near v0 v x w rho : ok v0 -> nth_error (m_vertices m) v = Some x -> nth_error (m_points m) v = Some (pos v0) -> 0 < rho ->
    (forall t, In t tris -> at_corner v0 t -> rho <= rdot (nor t) w) ->
    exists n : vec R 3, vertex_normal L (only self m) x = Ok n /\ rnorm n = 1 /\ rho <= rdot n w.
  Proof.
    intros Hv0 Hx Hv Hrho HT. pose proof H as (_ & _ & _ & _ & _ & _ & _ & _ & _ & _ & _ & _ & L2 & ts & Hw).
    apply (vertex_near M L L2 self ts m v x w rho Hw Hx Hrho). intros k f i h Hf Hh Hk Hhv.
    destruct (incident_corner v0 v k f i h Hv0 Hv Hf Hh Hk Hhv) as (t & Hin & Hc & En & N1). exists (nor t). split; [exact En|]. split; [exact N1|exact (HT t Hin Hc)].
  Qed.
  Lemma shape_exact v0 v x ds : veq_exact L -> ok v0 -> nth_error (m_vertices m) v = Some x -> nth_error (m_points m) v = Some (pos v0) -> NoDup ds -> rsum ds <> rzero ->
    (forall d, In d ds <-> exists t, In t tris /\ at_corner v0 t /\ d = nor t) ->
    vertex_normal L (only self m) x = Ok (rdirection (rsum ds)) /\ rnorm (rdirection (rsum ds)) = 1.
  Proof.
    intros HL Hv0 Hx Hv Nd Hnz HT. pose proof H as (_ & _ & _ & _ & _ & _ & _ & _ & _ & _ & _ & _ & L2 & ts & Hw).
    apply (vertex_exact M L L2 self ts m v x ds Hw HL Hx Nd Hnz).
    - intros k f i h Hf Hh Hk Hhv. destruct (incident_corner v0 v k f i h Hv0 Hv Hf Hh Hk Hhv) as (t & Hin & Hc & En & N1).
      exists (nor t). split; [exact En|]. split; [exact N1|]. apply HT. exists t. auto.
    - intros n Hn. apply HT in Hn as (t & Hin & Hc & ->). exact (shape_incident v0 v t Hv0 Hv Hin Hc).
  Qed.
End Shape.

(** ** Rotations *)
Ltac aff A := destruct A as ((? & ? & ? & []) & (? & ? & ? & []) & (? & ? & ? & []) & []);
  repeat match goal with u : vec R 3 |- _ => destruct u as (? & ? & ? & []) end; unfold affine, rzero; cbn; repeat (apply f_equal2; [ring|]); try reflexivity.
Section Rotation.
  Context (A : vec (vec R 3) 3) (HR : rigid (affine A rzero)) (HD : 0 < det3 A).
  Lemma lin_dot (u v : vec R 3) : rdot (affine A rzero u) (affine A rzero v) = rdot u v.
  Proof.
    pose proof (rigid_dot _ u rzero v rzero HR) as K.
    assert (Z : forall x : vec R 3, rsub (affine A rzero x) (affine A rzero rzero) = affine A rzero x) by (intros x; clear; aff A).
    rewrite !Z in K. rewrite K. clear. destruct u as (? & ? & ? & []), v as (? & ? & ? & []). cbn. ring.
  Qed.
  Lemma lin_norm (u : vec R 3) : rnorm (affine A rzero u) = rnorm u.
  Proof. unfold rnorm. rewrite lin_dot. reflexivity. Qed.
  Lemma lin_scale l (u : vec R 3) : affine A rzero (rscale l u) = rscale l (affine A rzero u).
  Proof. clear HR HD. aff A. Qed.
  Lemma lin_add (u v : vec R 3) : affine A rzero (radd u v) = radd (affine A rzero u) (affine A rzero v).
  Proof. clear HR HD. aff A. Qed.
  Lemma affine_diff t (p q : vec R 3) : rsub (affine A t p) (affine A t q) = affine A rzero (rsub p q).
  Proof. clear HR HD. aff A. Qed.

  Lemma third (a b c : vec R 3) : rdot a a = 1 -> rdot b b = 1 -> rdot c c = 1 -> rdot a b = 0 -> rdot (rcross a b) c = 1 -> rcross a b = c.
  Proof.
    intros Ha Hb Hc Hab Hd. assert (G : rdot (rcross a b) (rcross a b) = 1).
    { replace (rdot (rcross a b) (rcross a b)) with (rdot a a * rdot b b - rdot a b * rdot a b) by (clear; v3; ring). rewrite Ha, Hb, Hab. ring. }
    assert (Z : rsub (rcross a b) c = rzero).
    { apply rdot_self_zero. replace (rdot (rsub (rcross a b) c) (rsub (rcross a b) c)) with (rdot (rcross a b) (rcross a b) - 2 * rdot (rcross a b) c + rdot c c) by (generalize (rcross a b); clear; intros; v3; ring).
      rewrite G, Hd, Hc. ring. }
    apply rdist_zero. unfold rdist. rewrite Z. apply rnorm_rzero.
  Qed.
  Lemma lin_cross (u v : vec R 3) : rcross (affine A rzero u) (affine A rzero v) = affine A rzero (rcross u v).
  Proof.
    pose proof (lin_dot (mk3 1 0 0) (mk3 1 0 0)) as G11. pose proof (lin_dot (mk3 0 1 0) (mk3 0 1 0)) as G22. pose proof (lin_dot (mk3 0 0 1) (mk3 0 0 1)) as G33.
    pose proof (lin_dot (mk3 1 0 0) (mk3 0 1 0)) as G12. pose proof (lin_dot (mk3 0 1 0) (mk3 0 0 1)) as G23. pose proof (lin_dot (mk3 0 0 1) (mk3 1 0 0)) as G31.
    set (c1 := affine A rzero (mk3 1 0 0)) in *. set (c2 := affine A rzero (mk3 0 1 0)) in *. set (c3 := affine A rzero (mk3 0 0 1)) in *.
    assert (E1 : rdot (mk3 1 0 0 : vec R 3) (mk3 1 0 0) = 1) by (cbn; ring). assert (E2 : rdot (mk3 0 1 0 : vec R 3) (mk3 0 1 0) = 1) by (cbn; ring). assert (E3 : rdot (mk3 0 0 1 : vec R 3) (mk3 0 0 1) = 1) by (cbn; ring).
    assert (F1 : rdot (mk3 1 0 0 : vec R 3) (mk3 0 1 0) = 0) by (cbn; ring). assert (F2 : rdot (mk3 0 1 0 : vec R 3) (mk3 0 0 1) = 0) by (cbn; ring). assert (F3 : rdot (mk3 0 0 1 : vec R 3) (mk3 1 0 0) = 0) by (cbn; ring).
    rewrite E1 in G11. rewrite E2 in G22. rewrite E3 in G33. rewrite F1 in G12. rewrite F2 in G23. rewrite F3 in G31. clear E1 E2 E3 F1 F2 F3.
    assert (Dt : rdot (rcross c1 c2) c3 = det3 A) by (unfold c1, c2, c3, det3, affine; clear; destruct A as ((a11 & a12 & a13 & []) & (a21 & a22 & a23 & []) & (a31 & a32 & a33 & []) & []); cbn; ring).
    assert (Sq : rdot (rcross c1 c2) c3 * rdot (rcross c1 c2) c3 = 1).
    { transitivity (rdot c1 c1 * (rdot c2 c2 * rdot c3 c3 - rdot c2 c3 * rdot c2 c3) - rdot c1 c2 * (rdot c1 c2 * rdot c3 c3 - rdot c2 c3 * rdot c3 c1) + rdot c3 c1 * (rdot c1 c2 * rdot c2 c3 - rdot c2 c2 * rdot c3 c1)).
      - clearbody c1 c2 c3. clear. v3. ring.
      - rewrite G11, G22, G33, G12, G23, G31. ring. }
    assert (D1 : rdot (rcross c1 c2) c3 = 1) by (rewrite Dt in *; nra).
    assert (R1 : rdot (rcross c2 c3) c1 = 1) by (rewrite <- D1; clearbody c1 c2 c3; clear; v3; ring). assert (R2 : rdot (rcross c3 c1) c2 = 1) by (rewrite <- D1; clearbody c1 c2 c3; clear; v3; ring).
    pose proof (third c1 c2 c3 G11 G22 G33 G12 D1) as X3. pose proof (third c2 c3 c1 G22 G33 G11 G23 R1) as X1. pose proof (third c3 c1 c2 G33 G11 G22 G31 R2) as X2.
    assert (Ex : forall w : vec R 3, affine A rzero w = radd (rscale (vnth 0 0 w) c1) (radd (rscale (vnth 0 1 w) c2) (rscale (vnth 0 2 w) c3))).
    { intros w. unfold c1, c2, c3. clear. aff A. }
    rewrite !Ex. clearbody c1 c2 c3.
    transitivity (radd (rscale (vnth 0 0 (rcross u v)) (rcross c2 c3)) (radd (rscale (vnth 0 1 (rcross u v)) (rcross c3 c1)) (rscale (vnth 0 2 (rcross u v)) (rcross c1 c2)))).
    - clear. destruct u as (? & ? & ? & []), v as (? & ? & ? & []), c1 as (? & ? & ? & []), c2 as (? & ? & ? & []), c3 as (? & ? & ? & []). cbn. unfold mk3. repeat (apply f_equal2; [ring|]). reflexivity.
    - rewrite X1, X2, X3. reflexivity.
  Qed.
  (** the normal of a rotated triangle *)
  Lemma lin_normal t (q0 q1 q2 u : vec R 3) l : rcross (rsub q1 q0) (rsub q2 q0) = rscale l u ->
    rcross (rsub (affine A t q1) (affine A t q0)) (rsub (affine A t q2) (affine A t q0)) = rscale l (affine A rzero u).
  Proof. intros E. rewrite !affine_diff, lin_cross, E, lin_scale. reflexivity. Qed.
End Rotation.
