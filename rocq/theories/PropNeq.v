(** * Property theorems: operator!= (C58) *)

From Coq Require Import List Arith Bool Lia Reals Lra ZArith.
From Flocq Require Import Core BinarySingleNaN.
From Verif Require Import Scalar Linal Result SpecIEEE ModelShapes ModelBox ModelMesh SpecMesh ProofMesh ProofMeshMisc ProofRound ProofIEEE PropMesh.
Import ListNotations.

Lemma vall2_sym {A} (p : A -> A -> bool) : (forall x y, p x y = p y x) -> forall n (u v : vec A n), vall2 p u v = vall2 p v u.
Proof. intros H n. induction n as [|n IH]; intros u v; cbn; [reflexivity|]. now rewrite H, IH. Qed.

(** ** C58: for every scalar type and every comparison [isEq] that does not depend
    on the order of its operands, [a != b] is the negation of [a == b]. *)
Theorem C58_inequality :
  forall (S : Scalar) (L : Linal S), (forall x y, isEq L (leps L) x y = isEq L (leps L) y x) ->
    (forall n (a b : line S n), line_ne L a b = negb (line_eq L a b)) /\
    (forall n (a b : ray S n), ray_ne L a b = negb (ray_eq L a b)) /\
    (forall a b : plane S, plane_ne L a b = negb (plane_eq L a b)) /\
    (forall n (a b : segment S n), segment_ne L a b = negb (segment_eq L a b)) /\
    (forall a b : sphere S, sphere_ne L a b = negb (sphere_eq L a b)) /\
    (forall a b : circle2 S, circle2_ne L a b = negb (circle2_eq L a b)) /\
    (forall a b : circle3 S, circle3_ne L a b = negb (circle3_eq L a b)) /\
    (forall a b : cone S, cone_ne L a b = negb (cone_eq L a b)) /\
    (forall a b : cylinder S, cylinder_ne L a b = negb (cylinder_eq L a b)) /\
    (forall a b : cuboid S, cuboid_ne L a b = negb (cuboid_eq L a b)) /\
    (forall a b : interval S, interval_ne L a b = negb (interval_eq L a b)) /\
    (forall n (a b : aabb S n), aabb_ne L a b = negb (aabb_eq L a b)).
Proof.
  intros S L H.
  assert (E : forall n (u v : vec S n), is_equal L u v = is_equal L v u) by (intros; apply vall2_sym, H).
  assert (G : forall n (a b : segment S n), segment_eq L a b = segment_eq L b a).
  { intros n a b. unfold segment_eq. rewrite (E n (g_source a)), (E n (g_target a)). reflexivity. }
  repeat split; intros;
    unfold line_ne, ray_ne, plane_ne, segment_ne, sphere_ne, circle2_ne, circle3_ne, cone_ne, cylinder_ne, cuboid_ne, interval_ne, aabb_ne; f_equal.
  - unfold line_eq. rewrite (E n (l_origin a)), (E n (l_dir a)). reflexivity.
  - unfold ray_eq. rewrite (E n (r_origin a)), (E n (r_dir a)). reflexivity.
  - unfold plane_eq. rewrite (E 3 (p_origin a)), (E 3 (p_normal a)). reflexivity.
  - apply G.
  - unfold sphere_eq. rewrite (E 3 (s_origin a)), (H (s_radius a)). reflexivity.
  - unfold circle2_eq. rewrite (E 2 (c2_origin a)), (H (c2_radius a)). reflexivity.
  - unfold circle3_eq. rewrite (E 3 (c3_origin a)), (H (c3_radius a)), (E 3 (c3_normal a)). reflexivity.
  - unfold cone_eq. rewrite (G 3 (co_segment a)), (H (co_radius a)). reflexivity.
  - unfold cylinder_eq. rewrite (G 3 (cy_segment a)), (H (cy_radius a)). reflexivity.
  - unfold cuboid_eq. rewrite (E 3 (cu_origin a)), (E 3 (cu_x a)), (E 3 (cu_y a)), (E 3 (cu_z a)). reflexivity.
  - unfold interval_eq. rewrite (H (i_start a)), (H (i_end a)). reflexivity.
Qed.
Print Assumptions C58_inequality.

(** ** Which comparisons qualify: exact comparison and comparison of the distance
    with the tolerance, over the reals and over every IEEE format; infinities and
    NaN included. *)
Lemma sub_abs_sym (p e : Z) (Hp : FLX.Prec_gt_0 p) (He : Prec_lt_emax p e) (x y : binary_float p e) :
  Babs (@Bminus p e Hp He mode_NE x y) = Babs (@Bminus p e Hp He mode_NE y x).
Proof.
  destruct (is_finite x) eqn:Fx, (is_finite y) eqn:Fy.
  2,3,4: destruct x as [[]|[]| |[]], y as [[]|[]| |[]]; try discriminate; reflexivity.
  assert (E : (rndf p e (B2R y - B2R x) = - rndf p e (B2R x - B2R y))%R).
  { replace (B2R y - B2R x)%R with (- (B2R x - B2R y))%R by ring. apply round_NE_opp. }
  destruct (Rlt_or_le (Rabs (rndf p e (B2R x - B2R y)%R)) (bpow radix2 e)) as [Hlt|Hge].
  - destruct (@sub_ok p e Hp He x y Fx Fy Hlt) as (F1 & V1).
    destruct (@sub_ok p e Hp He y x Fy Fx) as (F2 & V2); [rewrite E, Rabs_Ropp; exact Hlt|].
    apply B2R_Bsign_inj; rewrite ?is_finite_Babs; auto.
    + rewrite !B2R_Babs, V1, V2, E, Rabs_Ropp. reflexivity.
    + rewrite !Bsign_Babs; try reflexivity; destruct (Bminus _ _ _); try discriminate; reflexivity.
  - rewrite (@sub_ovf p e Hp He x y Fx Fy Hge), (@sub_ovf p e Hp He y x Fy Fx); [reflexivity|].
    rewrite E, Rabs_Ropp. exact Hge.
Qed.

Theorem C58_symmetric_instances :
  (forall (M e x y : R),
     (isEq (raw_linal (RS M) e) e x y = isEq (raw_linal (RS M) e) e y x)%R /\
     (isEq (tol_linal (RS M) e) e x y = isEq (tol_linal (RS M) e) e y x)%R) /\
  (forall (p e : Z) (Hp : FLX.Prec_gt_0 p) (He : Prec_lt_emax p e) f g h pi,
     let S := IEEE p e Hp He f g h pi in
     forall eps x y : S,
       isEq (raw_linal S eps) eps x y = isEq (raw_linal S eps) eps y x /\
       isEq (tol_linal S eps) eps x y = isEq (tol_linal S eps) eps y x).
Proof.
  split.
  - intros M e x y. cbn. split.
    + unfold Reqb. destruct (Req_EM_T x y), (Req_EM_T y x); congruence.
    + now rewrite Rabs_minus_sym.
  - intros p e Hp He f g h pi S eps x y. split.
    + change (Beqb x y = Beqb y x).
      assert (K : forall u v : binary_float p e, Beqb u v = match Bcompare u v with Some Eq => true | _ => false end) by reflexivity.
      rewrite !K, (Bcompare_swap p e y x). destruct (Bcompare y x) as [[]|]; reflexivity.
    + change (Bleb (Babs (Bminus mode_NE x y)) eps = Bleb (Babs (Bminus mode_NE y x)) eps). now rewrite sub_abs_sym.
Qed.
Print Assumptions C58_symmetric_instances.

(** the contract [LinalR] alone would not do: with a one-sided comparison
    [a == b] and [a != b] can hold together *)
Example C58_one_sided :
  let L := {| leps := 1%R : RS 1; isZero := isZero (raw_linal (RS 1) 0%R); isEq := fun e a b => Rleb a b && Rleb b (a + e);
              isLess := isLess (raw_linal (RS 1) 0%R); isGreater := isGreater (raw_linal (RS 1) 0%R);
              isLessEq := isLessEq (raw_linal (RS 1) 0%R); isGreaterEq := isGreaterEq (raw_linal (RS 1) 0%R);
              veq := @veq _ (raw_linal (RS 1) 0%R) |} in
  let a := @mkInterval (RS 1) 0%R 0%R in let b := @mkInterval (RS 1) 1%R 1%R in
  interval_eq L a b = true /\ interval_ne L a b = true.
Proof.
  cbn zeta. unfold interval_ne, interval_eq. cbn. unfold Rleb.
  repeat (destruct Rle_dec; try lra); split; reflexivity.
Qed.

(** ** Mesh elements: halfedges and facets always; vertices whenever both
    operators are defined. *)
Theorem C58_mesh_elements_partial :
  (forall g h : halfedge, halfedge_ne g h = negb (halfedge_eq g h)) /\
  (forall f g : facet, facet_ne f g = negb (facet_eq f g)) /\
  (forall (u v : vertex) b c, vertex_eq u v = Ok b -> vertex_ne u v = Ok c -> c = negb b).
Proof.
  split; [|split].
  - intros g h. unfold halfedge_ne, halfedge_eq. now rewrite Nat.eqb_sym.
  - intros f g. unfold facet_ne, facet_eq. rewrite (Nat.eqb_sym (f_he g)). f_equal. f_equal.
    destruct (f_ptr f), (f_ptr g); cbn; try reflexivity. apply Nat.eqb_sym.
  - intros u v b c. unfold vertex_ne, vertex_eq.
    assert (Hp : ptr_eqb (v_ptr v) (v_ptr u) = ptr_eqb (v_ptr u) (v_ptr v)).
    { destruct (v_ptr u), (v_ptr v); cbn; try reflexivity. apply Nat.eqb_sym. }
    assert (Inj : forall b' c' : bool, c' = negb b' -> Ok b' = Ok b -> Ok c' = Ok c -> c = negb b).
    { intros b' c' -> H1 H2. apply Ok_inj in H1, H2. now subst. }
    rewrite Hp, (Nat.eqb_sym (v_index v)). clear Hp. destruct (ptr_eqb (v_ptr u) (v_ptr v)); cbn [negb]; [|apply Inj; reflexivity].
    destruct (v_index u =? v_index v); cbn [negb]; [|apply Inj; reflexivity].
    generalize (v_hes u) (v_hes v). intros l. induction l as [|x l IH]; intros [|y r]; cbn; try discriminate; [apply Inj; reflexivity|].
    rewrite (Nat.eqb_sym y x). destruct (x =? y); [apply IH|apply Inj; reflexivity].
Qed.
Print Assumptions C58_mesh_elements_partial.

(** Vertices, in general: for every vertex [x] of every mesh, a copy taken before
    [x] got one more halfedge compares equal to it, and asking whether the two
    differ is undefined behaviour. *)
Theorem C58_vertex_refuted :
  forall (S : Scalar) (L : Linal S) (a : addr) (ts : list (triangle S)) (m : mesh S) (v : nat) (x : vertex) (i : nat),
    well_formed L a ts m -> nth_error (m_vertices m) v = Some x -> 3 * length ts <= i ->
    vertex_eq x (addHalfedgeIndex i x) = Ok true /\ vertex_ne x (addHalfedgeIndex i x) = UB.
Proof.
  intros S L a ts m v x i Hw Hx Hi.
  destruct (wf_vertex _ _ _ _ Hw _ _ Hx) as (V1 & V2 & V3 & V4 & V5).
  assert (Es : v_hes (addHalfedgeIndex i x) = v_hes x ++ [i]).
  { cbn. apply std_sort_sorted. apply StronglySorted_snoc; [exact V4|].
    intros y Hy. apply V5 in Hy as (h & Hh & _). apply nth_error_lt in Hh. rewrite (wf_halfedge_count _ _ _ _ Hw) in Hh. lia. }
  split; [apply vertex_eq_spec; split; [reflexivity|]; split; [reflexivity|]; exists [i]; exact Es|].
  assert (Et : vertex_eq (addHalfedgeIndex i x) x = UB).
  { apply vertex_eq_spec. split; [reflexivity|]. split; [reflexivity|]. exists [], i. exact Es. }
  unfold vertex_ne. rewrite Et. reflexivity.
Qed.
Print Assumptions C58_vertex_refuted.

Example C58_example :
  (exists m v x, add_triangles zL 256 true 7 empty_mesh ztetra = Ok m /\ well_formed zL 7 ztetra m /\
    nth_error (m_vertices m) v = Some x) /\
  (let L := tol_linal ZS 1%Z in let a := @mkInterval ZS 0%Z 5%Z in
   (forall x y, isEq L (leps L) x y = isEq L (leps L) y x) /\
   interval_ne L a (@mkInterval ZS 1%Z 5%Z) = false /\ interval_ne L a (@mkInterval ZS 2%Z 5%Z) = true).
Proof.
  split; [exact C47_example|]. cbn zeta. split; [|split; reflexivity].
  intros x y. cbn. rewrite <- Z.abs_opp. f_equal. f_equal. lia.
Qed.
