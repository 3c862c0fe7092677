(** * Property theorems: vertex normals of a whole mesh (C31) and the order they
    are sorted by (C59) *)

From Coq Require Import List Arith Bool Lia Reals Lra ZArith.
From Flocq Require Import Core BinarySingleNaN.
From Verif Require Import Scalar Linal Result SpecReal SpecIEEE SpecSweep VecR ModelMesh SpecMesh ProofMesh ProofMeshMisc ProofMeshNormal
  ProofRound ProofIEEE PropMesh.
Import ListNotations.

(** ** C31, all vertices at once: one normal per vertex, in the order of the
    vertices, each as described by [C31_vertex_normal]; and at a vertex all of whose
    facets face the side of [w] the normal is a unit vector facing that side. *)
Theorem C31_all_normals :
  forall (M : R) (L : Linal (RS M)) (a : addr) (ts : list (triangle (RS M))) (m : mesh (RS M)),
    veq_exact L -> well_formed L a ts m ->
    (forall t, In t ts -> rcross (rsub (corner t 1) (corner t 0)) (rsub (corner t 2) (corner t 0)) <> (@rzero 3)) ->
    exists ns : list (vec R 3), calc_vertex_normals L (only a m) m = Ok ns /\ length ns = length (m_vertices m) /\
      forall v (n : vec R 3), nth_error ns v = Some n ->
        (forall ds : list (vec R 3), NoDup ds ->
          (forall d, In d ds <-> exists k t c h, nth_error ts k = Some t /\ c < 3 /\
              nth_error (m_halfedges m) (3 * k + c) = Some h /\ he_vertex h = v /\
              unit_normal d (corner t 0) (corner t 1) (corner t 2)) ->
          n = rscale (/ rnorm (rsum ds)) (rsum ds)) /\
        (forall w : vec R 3,
          (forall k t c h d, nth_error ts k = Some t -> c < 3 ->
             nth_error (m_halfedges m) (3 * k + c) = Some h -> he_vertex h = v ->
             unit_normal d (corner t 0) (corner t 1) (corner t 2) -> (0 < rdot d w)%R) ->
          rnorm n = 1%R /\ (0 < rdot n w)%R).
Proof.
  intros M L a ts m HL Hw Hnd. unfold calc_vertex_normals.
  assert (G : forall l, (forall x, In x l -> In x (m_vertices m)) ->
    exists ns, mapM (vertex_normal L (only a m)) l = Ok ns /\
      Forall2 (fun x n => vertex_normal L (only a m) x = Ok n) l ns).
  { induction l as [|x l IH]; intros Hl; [exists []; split; [reflexivity|constructor]|].
    destruct (In_nth_error _ _ (Hl x (or_introl eq_refl))) as (v & Hv).
    destruct (vertex_normal_R M L HL a ts m Hw Hnd v x Hv) as (n & En & _).
    destruct IH as (ns & E1 & E2); [intros; apply Hl; right; assumption|].
    exists (n :: ns). cbn [mapM]. rewrite En. cbn [bind]. rewrite E1. split; [reflexivity|]. constructor; assumption. }
  destruct (G (m_vertices m) (fun x H => H)) as (ns & E & HF). exists ns. split; [exact E|].
  split; [clear -HF; revert HF; generalize (m_vertices m); intros l HF; induction HF; [reflexivity|cbn; f_equal; exact IHHF]|].
  intros v n Hn.
  assert (K : exists x, nth_error (m_vertices m) v = Some x /\ vertex_normal L (only a m) x = Ok n).
  { clear -HF Hn. revert HF v Hn. generalize (m_vertices m). intros l0 HF. induction HF as [|x n0 l ns0 H0 _ IH]; intros [|v] Hn; try discriminate.
    - injection Hn as ->. exists x; auto.
    - apply IH; exact Hn. }
  destruct K as (x & Hx & Ex). split.
  - destruct (vertex_normal_R M L HL a ts m Hw Hnd v x Hx) as (n' & E' & H'). rewrite Ex in E'. apply Ok_inj in E'. subst n'. exact H'.
  - intros w Hside. destruct (vertex_normal_side M L HL a ts m Hw Hnd v x w Hx Hside) as (n' & E' & H'). rewrite Ex in E'. apply Ok_inj in E'. subst n'. exact H'.
Qed.
Print Assumptions C31_all_normals.

(** ** C59: the order is a strict weak ordering of real vectors and of finite
    vectors of every IEEE format *)
Lemma lex_strict_weak M (l : list (vec R 3)) : strict_weak (@lex_lt (RS M)) l.
Proof.
  split.
  - intros x _. apply not_true_iff_false. rewrite lex_lt_iff. destruct x as (a & b & c & []). lra.
  - intros x y z _ _ _. rewrite !lex_lt_iff.
    destruct x as (a & b & c & []), y as (a' & b' & c' & []), z as (a2 & b2 & c2 & []). intros H1 H2.
    destruct (Rtotal_order a a2) as [|[|]], (Rtotal_order b b2) as [|[|]]; lra.
  - intros x y z _ _ _ H1 H2 H3 H4.
    assert (x = y) by (apply (lex_le_antisym M); assumption).
    assert (y = z) by (apply (lex_le_antisym M); assumption). subst. auto.
Qed.

Theorem C59_sort_order_partial :
  (forall (M : R) (l : list (vec R 3)), strict_weak (@lex_lt (RS M)) l) /\
  (forall (p e : Z) (Hp : FLX.Prec_gt_0 p) (He : Prec_lt_emax p e) f g h pi,
     let S := IEEE p e Hp He f g h pi in
     forall l : list (vec S 3), (forall x, In x l -> finite_pt x) -> strict_weak (@lex_lt S) l).
Proof.
  split; [exact lex_strict_weak|].
  intros p e Hp He f g h pi S l Hl.
  set (val := fun x : vec S 3 => mk3 (fval 0 x) (fval 1 x) (fval 2 x) : vec R 3).
  assert (Q : forall u v : binary_float p e, is_finite u = true -> is_finite v = true ->
    Bltb u v = Rltb (B2R u) (B2R v) /\ Beqb u v = Reqb (B2R u) (B2R v)).
  { intros u v Fu Fv. rewrite Bltb_correct, Beqb_correct by assumption. unfold Rltb, Reqb. split.
    - destruct (Rlt_bool_spec (B2R u) (B2R v)), (Rlt_dec (B2R u) (B2R v)); try reflexivity; exfalso; lra.
    - destruct (Req_bool_spec (B2R u) (B2R v)), (Req_EM_T (B2R u) (B2R v)); try reflexivity; contradiction. }
  assert (K : forall x y : vec S 3, finite_pt x -> finite_pt y -> @lex_lt S x y = @lex_lt (RS 0) (val x) (val y)).
  { intros (a & b & c & []) (a' & b' & c' & []) Hx Hy.
    pose proof (Hx 0 ltac:(lia)) as X0. pose proof (Hx 1 ltac:(lia)) as X1. pose proof (Hx 2 ltac:(lia)) as X2.
    pose proof (Hy 0 ltac:(lia)) as Y0. pose proof (Hy 1 ltac:(lia)) as Y1. pose proof (Hy 2 ltac:(lia)) as Y2.
    cbn in X0, X1, X2, Y0, Y1, Y2.
    destruct (Q a a' X0 Y0) as (A1 & A2). destruct (Q b b' X1 Y1) as (B1 & B2). destruct (Q c c' X2 Y2) as (C1 & _).
    change (Bltb a a' || (Beqb a a' && Bltb b b') || (Beqb a a' && Beqb b b' && Bltb c c') =
            Rltb (B2R a) (B2R a') || (Reqb (B2R a) (B2R a') && Rltb (B2R b) (B2R b')) || (Reqb (B2R a) (B2R a') && Reqb (B2R b) (B2R b') && Rltb (B2R c) (B2R c'))).
    now rewrite A1, A2, B1, B2, C1. }
  destruct (lex_strict_weak 0 (map val l)) as [W1 W2 W3].
  split.
  - intros x Hx. rewrite K by auto. apply W1, in_map, Hx.
  - intros x y z Hx Hy Hz. rewrite !K by auto. apply W2; apply in_map; assumption.
  - intros x y z Hx Hy Hz. rewrite !K by auto. apply W3; apply in_map; assumption.
Qed.
Print Assumptions C59_sort_order_partial.

(** With a NaN among the normals it is not: in every IEEE format a NaN coordinate is
    equivalent to every number, and numbers are not equivalent to one another. *)
Theorem C59_nan_refuted :
  forall (p e : Z) (Hp : FLX.Prec_gt_0 p) (He : Prec_lt_emax p e) f g h pi,
    let S := IEEE p e Hp He f g h pi in
    forall (x y z : vec S 3) (l : list (vec S 3)),
      is_nan (vnth (B754_zero false) 0 x) = true -> @lex_lt S y z = true ->
      In x l -> In y l -> In z l -> ~ strict_weak (@lex_lt S) l.
Proof.
  intros p e Hp He f g h pi S x y z l Hn Hyz Ix Iy Iz [_ _ W].
  assert (N : forall w, @lex_lt S x w = false /\ @lex_lt S w x = false).
  { intros (a' & b' & c' & []). destruct x as (a & b & c & []). cbn in Hn. destruct a; try discriminate. unfold lex_lt.
    change ((Bltb B754_nan a' || (Beqb B754_nan a' && Bltb b b') || (Beqb B754_nan a' && Beqb b b' && Bltb c c') = false) /\
            (Bltb a' B754_nan || (Beqb a' B754_nan && Bltb b' b) || (Beqb a' B754_nan && Beqb b' b && Bltb c' c) = false)).
    destruct a' as [[]|[]| |[]]; split; reflexivity. }
  destruct (W y x z Iy Ix Iz (proj2 (N y)) (proj1 (N y)) (proj1 (N z)) (proj2 (N z))) as [E _].
  rewrite Hyz in E. discriminate.
Qed.
Print Assumptions C59_nan_refuted.

(** and this happens in a mesh of finite triangles: a sliver (three points on a
    line) next to two proper facets of a corner *)
Section Witness.
  Context (f g h : b64 -> b64) (pi : b64).
  Let S := B64 f g h pi.
  Let L := raw_linal S (b64_ofZ 0).
  Let q (a b c : Z) : vec S 3 := mk3 (b64_ofZ a) (b64_ofZ b) (b64_ofZ c).
  Definition sliver_corner : list (triangle (B64 f g h pi)) :=
    [(q 0 0 0, q 1 0 0, q 2 0 0); (q 0 0 0, q 1 0 0, q 0 1 0); (q 0 0 0, q 0 1 0, q 0 0 1)].
  Definition two_sided : list (triangle (B64 f g h pi)) :=
    [(q 0 0 0, q 1 0 0, q 0 1 0); (q 0 0 0, q 0 1 0, q 1 0 0)].
End Witness.

Theorem C59_sliver_refuted :
  forall f g h pi,
    let S := B64 f g h pi in let L := raw_linal S (b64_ofZ 0) in
    (forall t c, In t (sliver_corner f g h pi) -> finite_pt (corner t c)) /\
    exists m x fs ns, add_triangles L 256 true 7 empty_mesh (sliver_corner f g h pi) = Ok m /\
      nth_error (m_vertices m) 0 = Some x /\ calc_vertex_facets (only 7 m) x = Ok fs /\
      mapM (fun k => let* n := calc_facet_normal (only 7 m) k in Ok (normalize n)) fs = Ok ns /\
      ~ strict_weak (@lex_lt S) ns.
Proof.
  intros f g h pi S L. split.
  - intros t c Ht i Hi. cbn in Ht.
    repeat (destruct Ht as [Ht|Ht]; [subst t; destruct c as [|[|c]]; destruct i as [|[|[|i]]]; try lia; reflexivity|]). destruct Ht.
  - pose (bad := fun ns : list (vec S 3) => match ns with
      | [x; y; z] => is_nan (vnth (B754_zero false) 0 x) && @lex_lt S y z | _ => false end).
    assert (E : match add_triangles L 256 true 7 empty_mesh (sliver_corner f g h pi) with
      | Ok m => match nth_error (m_vertices m) 0 with
        | Some x => match calc_vertex_facets (only 7 m) x with
          | Ok fs => match mapM (fun k => let* n := calc_facet_normal (only 7 m) k in Ok (normalize n)) fs with
            | Ok ns => bad ns | _ => false end | _ => false end | _ => false end | _ => false end = true) by (vm_compute; reflexivity).
    destruct (add_triangles _ _ _ _ _ _) as [m| | | |]; try discriminate.
    destruct (nth_error (m_vertices m) 0) as [x|] eqn:E1; try discriminate.
    destruct (calc_vertex_facets (only 7 m) x) as [fs| | | |] eqn:E2; try discriminate.
    destruct (mapM _ fs) as [ns| | | |] eqn:E3; try discriminate.
    exists m, x, fs, ns. repeat (split; [auto|]).
    destruct ns as [|a [|b [|c [|]]]]; try discriminate. cbn in E. apply andb_true_iff in E as (N & Hlt).
    eapply (C59_nan_refuted 53 1024) with (x := a); [exact N|exact Hlt|cbn; auto|cbn; auto|cbn; auto].
Qed.
Print Assumptions C59_sliver_refuted.

(** ** C31: a unit normal at every vertex, refuted.  At a vertex of a two-sided
    triangle the facet normals cancel: over the reals their sum is zero, and
    binary64 gives NaN. *)
Theorem C31_opposite_facets_refuted :
  forall f g h pi,
    let S := B64 f g h pi in let L := raw_linal S (b64_ofZ 0) in
    exists m ns, add_triangles L 256 true 7 empty_mesh (two_sided f g h pi) = Ok m /\
      calc_vertex_normals L (only 7 m) m = Ok ns /\ length ns = 3 /\
      (forall n i, In n ns -> i < 3 -> is_nan (vnth (B754_zero false) i n) = true).
Proof.
  intros f g h pi S L.
  pose (bad := fun ns : list (vec S 3) => (length ns =? 3) && forallb (fun n : vec S 3 => is_nan (vnth (B754_zero false) 0 n)
    && is_nan (vnth (B754_zero false) 1 n) && is_nan (vnth (B754_zero false) 2 n)) ns).
  assert (E : match add_triangles L 256 true 7 empty_mesh (two_sided f g h pi) with
      | Ok m => match calc_vertex_normals L (only 7 m) m with Ok ns => bad ns | _ => false end | _ => false end = true) by (vm_compute; reflexivity).
  destruct (add_triangles _ _ _ _ _ _) as [m| | | |]; try discriminate.
  destruct (calc_vertex_normals L (only 7 m) m) as [ns| | | |] eqn:E1; try discriminate.
  exists m, ns. split; [reflexivity|]. split; [exact E1|]. unfold bad in E. apply andb_true_iff in E as (E2 & E3).
  split; [apply Nat.eqb_eq, E2|]. rewrite forallb_forall in E3. intros n i Hn Hi. specialize (E3 n Hn).
  apply andb_true_iff in E3 as (E3 & N2). apply andb_true_iff in E3 as (N0 & N1).
  destruct i as [|[|[|i]]]; [exact N0|exact N1|exact N2|lia].
Qed.
Print Assumptions C31_opposite_facets_refuted.

(** non-vacuity: the hypotheses of [C31_all_normals] hold of the tetrahedron
    ([C31_example]); those about the side hold of a single triangle; NaN vectors and
    ordered vectors exist in every format *)
Example C31_side_example :
  let ts := [(rp 0 0 0, rp 1 0 0, rp 0 1 0)] in
  forall k t c (m : mesh (RS 1)) h (d : vec R 3), nth_error ts k = Some t -> c < 3 ->
    nth_error (m_halfedges m) (3 * k + c) = Some h -> he_vertex h = 0 ->
    unit_normal d (corner t 0) (corner t 1) (corner t 2) -> (0 < rdot d (mk3 0 0 1))%R.
Proof.
  intros ts k t c m h d Ht _ _ _ Hd. destruct k as [|[|k]]; try discriminate. injection Ht as <-. cbn [corner] in Hd.
  assert (U : unit_normal (mk3 0%R 0%R 1%R) (rp 0 0 0) (rp 1 0 0) (rp 0 1 0)).
  { unfold unit_normal, rnorm. cbn. replace (0 * 0 + (0 * 0 + (1 * 1 + 0)))%R with 1%R by ring. rewrite sqrt_1. repeat split; lra. }
  rewrite (unit_normal_unique _ _ _ _ _ Hd U). cbn. lra.
Qed.

Example C59_example :
  forall f g h pi, let S := B64 f g h pi in
  is_nan (vnth (B754_zero false) 0 (mk3 B754_nan B754_nan B754_nan : vec S 3)) = true /\
  @lex_lt S (mk3 (b64_ofZ 0) (b64_ofZ 0) (b64_ofZ 1)) (mk3 (b64_ofZ 1) (b64_ofZ 0) (b64_ofZ 0)) = true /\
  (forall x, In x [mk3 (b64_ofZ 0) (b64_ofZ 0) (b64_ofZ 1); mk3 (b64_ofZ 1) (b64_ofZ 0) (b64_ofZ 0) : vec S 3] -> finite_pt x).
Proof.
  intros f g h pi S. split; [reflexivity|]. split; [vm_compute; reflexivity|].
  intros x Hx i Hi. cbn in Hx. repeat (destruct Hx as [Hx|Hx]; [subst x; destruct i as [|[|[|i]]]; try lia; reflexivity|]). destruct Hx.
Qed.
