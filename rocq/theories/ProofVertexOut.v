(** * Lemmas: vertex normals of tessellations *)

From Coq Require Import List Arith Bool Lia Reals Lra ZArith Permutation Sorted.
From Flocq Require Import Core BinarySingleNaN.
From Verif Require Import Scalar Linal Result SpecReal VecR VecLemmas SpecIEEE SpecTransform SpecFloatErr SpecFloatTess SpecFloatSkew SpecFloatNormal SpecFloatOut SpecVertexOut
  ModelKdTree SpecKdTree ModelShapes ModelTransform ModelMesh SpecMesh ModelTess SpecTess ProofTransform
  ProofMesh ProofMeshOpp ProofMeshValid ProofMeshNormal ProofTessComb ProofTessConn ProofTessMesh ProofTessSphere ProofTessRound ProofTess ProofVolume ProofConvex
  ProofRound ProofIEEE ProofFloatErr ProofFloatDist ProofFloatTrig ProofFloatSkew ProofFloatNormal ProofFloatOut PropFloatNormal.
Import ListNotations.
Local Open Scope R_scope.

Lemma mapM_nth {A B} (f : A -> res B) l : forall r v y, mapM f l = Ok r -> nth_error r v = Some y -> exists x, nth_error l v = Some x /\ f x = Ok y.
Proof.
  induction l as [|x l IH]; intros r v y E H; cbn [mapM] in E.
  - apply Ok_inj in E. subst r. destruct v; discriminate H.
  - destruct (f x) as [z| | | |] eqn:E1; try discriminate E. cbn [bind] in E. destruct (mapM f l) as [r'| | | |] eqn:E2; try discriminate E. cbn [bind] in E.
    apply Ok_inj in E. subst r. destruct v as [|v]; [exists x; split; [reflexivity|]; rewrite E1; f_equal; injection H as H; exact H|]. exact (IH r' v y eq_refl H).
Qed.
Lemma sorted_NoDup l : StronglySorted lt l -> NoDup l.
Proof.
  induction 1 as [|x l _ IH Hx]; constructor; [|exact IH]. intros H. rewrite Forall_forall in Hx. specialize (Hx x H). lia.
Qed.
Lemma degree_le {S : Scalar} (L : Linal S) a ts (m : mesh S) v x : well_formed L a ts m -> nth_error (m_vertices m) v = Some x -> (length (v_hes x) <= length (m_halfedges m))%nat.
Proof.
  intros Hw Hv. destruct (wf_vertex _ _ _ _ Hw v x Hv) as (_ & _ & _ & Hs & Hin).
  rewrite <- (seq_length (length (m_halfedges m)) 0). apply NoDup_incl_length; [apply sorted_NoDup, Hs|].
  intros i Hi. apply Hin in Hi as (h & Hh & _). apply in_seq. pose proof (nth_error_lt _ _ _ Hh). lia.
Qed.
Lemma halfedge_facet {S : Scalar} (L : Linal S) a ts (m : mesh S) k c h : well_formed L a ts m -> (c < 3)%nat -> nth_error (m_halfedges m) (3 * k + c) = Some h ->
  he_facet h = k /\ (exists f, nth_error (m_facets m) k = Some f) /\ exists q, nth_error (m_points m) (he_vertex h) = Some q.
Proof.
  intros Hw Hc Hh. pose proof (nth_error_lt _ _ _ Hh) as Hi. rewrite (wf_halfedge_count _ _ _ _ Hw) in Hi.
  destruct (nth_error_get ts k) as (t & Ht); [lia|]. destruct (wf_halfedge _ _ _ _ Hw k t c Ht Hc) as (h' & q & A1 & _ & A2 & _ & _ & _ & A3 & _).
  assert (h' = h) by congruence. subst h'. split; [exact A2|]. split; [|eauto].
  apply (nth_error_get (m_facets m) k). rewrite (wf_facet_count _ _ _ _ Hw). lia.
Qed.

(** ** Exact arithmetic: the facets of every vertex face its side *)
Lemma normals_side M (L L' : Linal (RS M)) a ts (m : mesh (RS M)) (W : nat -> vec R 3) : well_formed L' a ts m ->
  (forall k f, nth_error (m_facets m) k = Some f -> exists n : vec R 3, calc_facet_normal (only a m) f = Ok n /\ rnorm n = 1 /\
     forall i h, nth_error (m_halfedges m) i = Some h -> he_facet h = k -> 0 < rdot n (W (he_vertex h))) ->
  exists ns : list (vec R 3), calc_vertex_normals L (only a m) m = Ok ns /\ length ns = length (m_points m) /\
    forall v n, nth_error ns v = Some n -> rnorm n = 1 /\ 0 < rdot n (W v).
Proof.
  intros Hw HF.
  assert (V : forall v x, nth_error (m_vertices m) v = Some x -> exists n : vec R 3, vertex_normal L (only a m) x = Ok n /\ rnorm n = 1 /\ 0 < rdot n (W v)).
  { intros v x Hv. destruct (calc_vertex_facets_ok L' a ts m Hw v x Hv) as (ks & fs & E & H2 & _ & Hin).
    destruct (wf_vertex _ _ _ _ Hw v x Hv) as (_ & _ & V3 & _ & V5).
    set (nrm := fun f => let* n := calc_facet_normal (only a m) f in Ok (normalize n)).
    assert (FN : forall f, In f fs -> exists n : vec R 3, nrm f = Ok n /\ 0 < rdot n (W v)).
    { intros f Hf. destruct (Forall2_in_r _ _ _ _ H2 Hf) as (k & Hk & Ek). destruct (proj1 (Hin k) Hk) as (c & h & C3 & A1 & A2).
      destruct (HF k f Ek) as (n & En & N1 & Hn). exists n. split; [unfold nrm; rewrite En; cbn [bind]; rewrite normalize_unit by exact N1; reflexivity|].
      rewrite <- A2. apply (Hn _ h A1). apply (halfedge_facet L' a ts m k c h Hw C3 A1). }
    destruct (mapM_total nrm fs) as (ns & En); [intros f Hf; destruct (FN f Hf) as (y & Ey & _); eauto|].
    set (ds := std_unique (@veq (RS M) L 3) (std_sort (@lex_lt (RS M)) ns) : list (vec R 3)).
    assert (Dn : forall d, In d ds -> 0 < rdot d (W v)).
    { intros d Hd. apply std_unique_in, std_sort_in in Hd. destruct (mapM_in _ _ _ _ En Hd) as (f & Hf & Ef). destruct (FN f Hf) as (y & Ey & Hy). rewrite Ef in Ey. apply Ok_inj in Ey. subst y. exact Hy. }
    assert (Nd : ds <> []).
    { apply std_unique_length. intros Q. assert (Ls : length (std_sort (@lex_lt (RS M)) ns) = length fs) by (rewrite std_sort_length; exact (mapM_length _ _ _ En)).
      rewrite Q in Ls. assert (Lf : length fs = length (v_hes x)).
      { unfold calc_vertex_facets in E. destruct (calcHalfedges (only a m) x) as [hs| | | |] eqn:Eh; try discriminate E. cbn [bind] in E. apply mapM_length in E. unfold calcHalfedges in Eh. apply mapM_length in Eh. congruence. }
      destruct (v_hes x); [congruence|]. cbn in Ls, Lf. lia. }
    exists (@normalize (RS M) 3 (fold_left (@vadd (RS M) 3) ds (mk3 (@s0 (RS M)) s0 s0))). split; [unfold vertex_normal; rewrite E; cbn [bind]; fold nrm; rewrite En; reflexivity|].
    rewrite fold_vadd_rsum, normalize_R. assert (Ez : forall s : vec R 3, radd (mk3 0 0 0) s = s) by (intros s; rewrite radd_comm; apply (radd_zero_r s)).
    cbn [s0 RS]. rewrite Ez. pose proof (rsum_dot_pos ds (W v) Nd Dn) as Hpos.
    assert (Hnz : rsum ds <> rzero) by (intros Z; rewrite Z, rdot_zero_l in Hpos; lra).
    split; [apply rnorm_normalize, Hnz|]. rewrite rdot_scale_l. apply Rmult_lt_0_compat; [apply normalize_nonzero, Hnz|exact Hpos]. }
  destruct (mapM_total (vertex_normal L (only a m)) (m_vertices m)) as (ns & En).
  { intros x Hx. destruct (In_nth_error _ _ Hx) as (v & Hv). destruct (V v x Hv) as (n & N & _). eauto. }
  exists ns. split; [exact En|]. split; [rewrite <- (wf_vertex_count _ _ _ _ Hw); exact (mapM_length _ _ _ En)|].
  intros v n Hn. destruct (mapM_nth _ _ _ _ _ En Hn) as (x & Hx & Ex). destruct (V v x Hx) as (n' & E' & R). rewrite Ex in E'. apply Ok_inj in E'. subst n'. exact R.
Qed.

Lemma outward_vertices M (L L' : Linal (RS M)) a ts (m : mesh (RS M)) c : well_formed L' a ts m -> outward a m c -> vertices_outward L a m c.
Proof.
  intros Hw HO. destruct (normals_side M L L' a ts m (fun v => match nth_error (m_points m) v with Some q => rsub q c | None => rzero end) Hw) as (ns & E & Hl & H).
  - intros k f Hf. destruct (HO k f Hf) as (n & En & N1 & Hn). exists n. split; [exact En|]. split; [exact N1|]. intros i h Hh Hk.
    assert (Hi : i = (3 * (i / 3) + i mod 3)%nat) by (apply Nat.div_mod; lia). rewrite Hi in Hh.
    destruct (halfedge_facet L' a ts m (i / 3) (i mod 3) h Hw (Nat.mod_upper_bound i 3 ltac:(lia)) Hh) as (_ & _ & q & Hq). rewrite Hq. exact (Hn _ h q Hh Hk Hq).
  - exists ns. split; [exact E|]. split; [exact Hl|]. intros v n q Hn Hq. specialize (H v n Hn). rewrite Hq in H. exact H.
Qed.
Lemma inward_vertices M (L L' : Linal (RS M)) a ts (m : mesh (RS M)) c : well_formed L' a ts m -> inward a m c -> vertices_inward L a m c.
Proof.
  intros Hw HO. destruct (normals_side M L L' a ts m (fun v => match nth_error (m_points m) v with Some q => rsub c q | None => rzero end) Hw) as (ns & E & Hl & H).
  - intros k f Hf. destruct (HO k f Hf) as (n & En & N1 & Hn). exists n. split; [exact En|]. split; [exact N1|]. intros i h Hh Hk.
    assert (Hi : i = (3 * (i / 3) + i mod 3)%nat) by (apply Nat.div_mod; lia). rewrite Hi in Hh.
    destruct (halfedge_facet L' a ts m (i / 3) (i mod 3) h Hw (Nat.mod_upper_bound i 3 ltac:(lia)) Hh) as (_ & _ & q & Hq). rewrite Hq. specialize (Hn _ h q Hh Hk Hq).
    replace (rdot n (rsub c q)) with (- rdot n (rsub q c)) by vring. lra.
  - exists ns. split; [exact E|]. split; [exact Hl|]. intros v n q Hn Hq. specialize (H v n Hn). rewrite Hq in H. destruct H as (H1 & H2). split; [exact H1|].
    replace (rdot n (rsub q c)) with (- rdot n (rsub c q)) by vring. lra.
Qed.

(** ** Floating point *)
Lemma facet_sides {p e : Z} {Hp : Prec_gt_0 p} {He : Prec_lt_emax p e} (fc fs fa : binary_float p e -> binary_float p e) (fpi : binary_float p e) (q0 q1 q2 : vec (binary_float p e) 3) (r0 r1 r2 o : vec R 3) (R0 dl D mu : R) (K : Z) :
  finite_pt q0 -> finite_pt q1 -> finite_pt q2 ->
  rdist (vreal q0) r0 <= dl -> rdist (vreal q1) r1 <= dl -> rdist (vreal q2) r2 <= dl ->
  rdist r0 o <= R0 -> rdist r1 o <= R0 -> rdist r2 o <= R0 -> D <= sixvol o r0 r1 r2 -> 0 < D ->
  8 * (R0 * R0) * dl <= D -> 500 * uround p * (R0 * R0 * R0) <= D -> 1024 * uround p <= 1 -> scale_frame p e K R0 D ->
  0 < mu -> 12 * mu * (R0 * R0 * R0) <= D ->
  triangle_frame p e K (vreal q0) (vreal q1) (vreal q2) /\ mu <= corner_sine (vreal q0) (vreal q1) (vreal q2) /\
  exists N, unit_normal N (vreal q0) (vreal q1) (vreal q2) /\
    forall q, q = q0 \/ q = q1 \/ q = q2 -> let w := rsub (vreal q) o in 0 < rnorm w /\ mu <= rdot N (rdirection w).
Proof.
  intros F0 F1 F2 M0 M1 M2 N0 N1 N2 HD D0 H8 H500 Hu1 Hfr m0 Hmu. pose proof (@u_pos p) as Hu.
  destruct (facet_frame q0 q1 q2 r0 r1 r2 o R0 dl D K F0 F1 F2 M0 M1 M2 N0 N1 N2 HD D0 H8 H500 Hu1 Hfr) as (HT & Rp & HD' & C0 & sB & EC & PP4 & (I0 & I1 & I2) & B1 & B2 & B3).
  split; [exact HT|].
  destruct (fn_normal fc fs fa fpi Hu1 K q0 q1 q2 F0 F1 F2 HT) as (_ & _ & _ & UN).
  set (x0 := vreal q0) in *. set (x1 := vreal q1) in *. set (x2 := vreal q2) in *. set (D' := det (rsub x0 o) (rsub x1 o) (rsub x2 o)) in *.
  set (B := 9 / 8 * R0) in *. set (E1 := rsub x1 x0) in *. set (E2 := rsub x2 x1) in *. set (C := rcross E1 E2) in *. set (s := corner_sine x0 x1 x2) in *.
  assert (B0 : 0 < B) by (unfold B; lra). assert (EBB : B * B * B = 729 / 512 * (R0 * R0 * R0)) by (unfold B; field).
  assert (RRR : 0 < R0 * R0 * R0) by (repeat apply Rmult_lt_0_compat; assumption).
  assert (mR : 0 < mu * (R0 * R0 * R0)) by (apply Rmult_lt_0_compat; assumption).
  assert (mB : mu * (4 * (B * B * B)) <= D') by (rewrite EBB; lra).
  split.
  { apply Rmult_le_reg_r with (4 * (B * B * B)); [rewrite EBB; lra|]. lra. }
  exists (rdirection C). split; [exact UN|].
  assert (CE : rnorm C <= 4 * (B * B)). { eapply Rle_trans; [apply rcross_le|exact PP4]. }
  assert (OUT : forall x, rdot C (rsub x o) = D' -> rdist x o <= B -> 0 < rnorm (rsub x o) /\ mu <= rdot (rdirection C) (rdirection (rsub x o))).
  { intros x Hx Bx. change (rnorm (rsub x o) <= B) in Bx. set (w := rsub x o) in *.
    assert (w0 : 0 < rnorm w).
    { destruct (Req_dec (rnorm w) 0) as [Q|Q]; [|pose proof (rnorm_nonneg w); lra]. pose proof (cauchy_schwarz C w) as CS. rewrite Q, Rmult_0_r, Hx in CS. apply Rabs_le_inv in CS. lra. }
    split; [exact w0|]. unfold rdirection. rewrite rdot_scale_l, rdot_scale_r, Hx.
    assert (CW : 0 < rnorm C * rnorm w) by (apply Rmult_lt_0_compat; assumption).
    apply Rmult_le_reg_r with (rnorm C * rnorm w); [exact CW|]. replace (/ rnorm C * (/ rnorm w * D') * (rnorm C * rnorm w)) with D' by (field; lra).
    eapply Rle_trans; [|exact mB]. apply Rmult_le_compat_l; [lra|]. replace (4 * (B * B * B)) with (4 * (B * B) * B) by ring. apply Rmult_le_compat; lra. }
  intros q [-> |[-> | ->]]; apply OUT; assumption.
Qed.

Lemma mesh_vertices_outward {p e : Z} {Hp : Prec_gt_0 p} {He : Prec_lt_emax p e} fc fs fa fpi (L : Linal (IEEE p e Hp He fc fs fa fpi)) (self : addr)
    (G : point (IEEE p e Hp He fc fs fa fpi) -> Prop) (HG : veq_on L G) {V} (tris : list (V * V * V)) (fp : V -> point (IEEE p e Hp He fc fs fa fpi))
    (m : mesh (IEEE p e Hp He fc fs fa fpi)) (ok : V -> Prop) (rp : V -> vec R 3) (o : vec R 3) (R0 c D mu : R) (K : Z) :
  well_formed L self (solid_triangles (IEEE p e Hp He fc fs fa fpi) tris fp) m -> (forall x y z, In (x, y, z) tris -> ok x /\ ok y /\ ok z) ->
  (forall v, ok v -> G (fp v)) -> (forall v, ok v -> close_to c (fp v : vec (binary_float p e) 3) (rp v)) -> (forall v, ok v -> rdist (rp v) o <= R0) ->
  (forall x y z, In (x, y, z) tris -> D <= sixvol o (rp z) (rp y) (rp x)) -> 0 < D ->
  16 * (R0 * R0) * c <= D -> 500 * uround p * (R0 * R0 * R0) <= D -> 1024 * uround p <= 1 -> scale_frame p e K R0 D ->
  0 < mu -> 12 * mu * (R0 * R0 * R0) <= D ->
  let cnt := INR (3 * length tris) in 32 * cnt * uround p <= 1 -> 13 * uround p <= mu - 36 * uround p / mu - 6 / 5 * cnt * uround p ->
  float_vertices_outward L self m o.
Proof.
  intros Hw Hok HGp Hc HR HD D0 H16 H500 Hu Hfr m0 Hmu cnt Hc32 Hc13. pose proof (@u_pos p) as U.
  set (q0 := mk3 s0 s0 s0 : point (IEEE p e Hp He fc fs fa fpi)).
  set (W := fun v => rdirection (rsub (vreal (nth v (m_points m) q0 : vec (binary_float p e) 3)) o)).
  assert (Hfacet : forall k c' he, (c' < 3)%nat -> nth_error (m_halfedges m) (3 * k + c') = Some he ->
    exists (p0 p1 p2 : vec (binary_float p e) 3) N, facet_points m k p0 p1 p2 /\ finite_pt p0 /\ finite_pt p1 /\ finite_pt p2 /\
      triangle_frame p e K (vreal p0) (vreal p1) (vreal p2) /\ mu <= corner_sine (vreal p0) (vreal p1) (vreal p2) /\
      unit_normal N (vreal p0) (vreal p1) (vreal p2) /\ 0 < rnorm (rsub (vreal (nth (he_vertex he) (m_points m) q0 : vec (binary_float p e) 3)) o) /\ mu <= rdot N (W (he_vertex he))).
  { intros k c' he Hc3 Hh. destruct (halfedge_facet L self _ m k c' he Hw Hc3 Hh) as (Hk & (f & Hf) & q & Hq).
    destruct (solid_facet L self G HG tris fp m Hw) with (k := k) (f := f) as (x & y & z & Hin & Hpt & Htri & Hall).
    { intros x y z Hin. destruct (Hok x y z Hin) as (A & B & C). auto. }
    { exact Hf. }
    destruct (Hok x y z Hin) as (Ox & Oy & Oz).
    assert (FF : forall v, ok v -> finite_pt (fp v : vec (binary_float p e) 3)) by (intros v Hv; apply (Hc v Hv)).
    destruct (facet_sides fc fs fa fpi (fp z) (fp y) (fp x) (rp z) (rp y) (rp x) o R0 (2 * c) D mu K (FF z Oz) (FF y Oy) (FF x Ox)
      (close_dist _ _ _ (Hc z Oz)) (close_dist _ _ _ (Hc y Oy)) (close_dist _ _ _ (Hc x Ox)) (HR z Oz) (HR y Oy) (HR x Ox) (HD x y z Hin) D0) as (A1 & A2 & N & A3 & A4);
      [lra|assumption|assumption|assumption|assumption|assumption|].
    exists (fp z), (fp y), (fp x), N. split; [exact Hpt|]. split; [apply FF, Oz|]. split; [apply FF, Oy|]. split; [apply FF, Ox|]. split; [exact A1|]. split; [exact A2|]. split; [exact A3|].
    pose proof (A4 q (Hall _ he q Hh Hk Hq)) as Q. unfold W. rewrite (nth_error_nth _ _ q0 Hq). exact Q. }
  assert (Hdir : forall v x, nth_error (m_vertices m) v = Some x -> exists q, nth_error (m_points m) v = Some q /\ 0 < rnorm (rsub (vreal (q : vec (binary_float p e) 3)) o)).
  { intros v x Hv. destruct (wf_vertex _ _ _ _ Hw v x Hv) as (_ & _ & V3 & _ & V5). destruct (v_hes x) as [|i l]; [congruence|].
    destruct (proj1 (V5 i) (or_introl eq_refl)) as (h & Hh & Eh). assert (Hi : i = (3 * (i / 3) + i mod 3)%nat) by (apply Nat.div_mod; lia). rewrite Hi in Hh.
    assert (C3 : (i mod 3 < 3)%nat) by (apply Nat.mod_upper_bound; lia).
    destruct (halfedge_facet L self _ m _ _ h Hw C3 Hh) as (_ & _ & q & Hq). destruct (Hfacet _ _ h C3 Hh) as (? & ? & ? & ? & _ & _ & _ & _ & _ & _ & _ & Z & _).
    rewrite Eh in Hq, Z. exists q. split; [exact Hq|]. rewrite (nth_error_nth _ _ q0 Hq) in Z. exact Z. }
  destruct (C77_all_normals p e Hp He fc fs fa fpi L self _ m Hw Hu W mu mu m0) as (ns & E & Hl & H).
  { intros v x Hv. destruct (Hdir v x Hv) as (q & Hq & Z). split.
    { unfold W. rewrite (nth_error_nth _ _ q0 Hq). apply rnorm_normalize. intros Q. rewrite Q, rnorm_rzero in Z. lra. }
    split.
    { intros k c' he Hc3 Hh Ev. destruct (Hfacet k c' he Hc3 Hh) as (p0 & p1 & p2 & N & B1 & B2 & B3 & B4 & B5 & B6 & B7 & _ & B8). rewrite Ev in B8.
      exists p0, p1, p2, K, N. repeat (split; [assumption|]). exact B8. }
    intros cn. assert (Hcn : cn <= cnt).
    { unfold cn, cnt. apply le_INR. pose proof (degree_le L self _ m v x Hw Hv) as Q. rewrite (wf_halfedge_count _ _ _ _ Hw) in Q. unfold solid_triangles in Q. rewrite !map_length in Q. exact Q. }
    assert (cn * uround p <= cnt * uround p) by (apply Rmult_le_compat_r; lra). unfold facet_bound2. split; lra. }
  exists ns. split; [exact E|]. split; [rewrite <- (wf_vertex_count _ _ _ _ Hw); exact Hl|].
  intros v n q Hn Hq. destruct (H v n Hn) as (A1 & A2 & A3 & _). split; [exact A1|]. split; [exact A2|].
  destruct (nth_error_get (m_vertices m) v) as (x & Hx); [rewrite (wf_vertex_count _ _ _ _ Hw); eapply nth_error_lt; eauto|].
  destruct (Hdir v x Hx) as (q' & Hq' & Z). assert (q' = q) by congruence. subst q'. unfold W in A3. rewrite (nth_error_nth _ _ q0 Hq) in A3.
  unfold rdirection in A3. rewrite rdot_scale_r in A3. apply Rmult_lt_reg_l with (/ rnorm (rsub (vreal (q : vec (binary_float p e) 3)) o)); [apply Rinv_0_lt_compat, Z|]. rewrite Rmult_0_r. exact A3.
Qed.

Lemma ready_vertices {p e : Z} {Hp : Prec_gt_0 p} {He : Prec_lt_emax p e} fc fs fa fpi (L : Linal (IEEE p e Hp He fc fs fa fpi)) self m o R0 c D K N mu :
  ready L self m o R0 c D K N -> 0 < mu -> 12 * mu * (R0 * R0 * R0) <= D ->
  let cnt := INR (3 * N) in 32 * cnt * uround p <= 1 -> 13 * uround p <= mu - 36 * uround p / mu - 6 / 5 * cnt * uround p ->
  float_vertices_outward L self m o.
Proof.
  intros ((V & G & tris & fp & ok & rp & H1 & <- & H2 & H3 & H4 & H5 & H6 & H7) & H8 & H9 & H10 & H11 & H12).
  exact (mesh_vertices_outward fc fs fa fpi L self G H1 tris fp m ok rp o R0 c D mu K H2 H3 H4 H5 H6 H7 H8 H9 H10 H11 H12).
Qed.
