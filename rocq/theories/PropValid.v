(** * Property theorems: what is_valid accepts (C69) *)

From Coq Require Import List Arith Bool Lia Sorting.Sorted.
From Verif Require Import Scalar Linal Result ModelMesh SpecMesh SpecValid ProofValid.
Import ListNotations.

(** The check of any mesh, built by the library or not, in any memory, passes exactly
    if the conditions of [good_mesh] hold, with and without assertions. *)
Theorem C69_is_valid :
  forall (S : Scalar) (W : nat) (dbg : bool) (mm : mem S) (m : mesh S),
    mesh_is_valid W dbg mm m = Ok true <-> good_mesh W mm m.
Proof. exact @mesh_valid_iff. Qed.
Print Assumptions C69_is_valid.

(** the same for single elements *)
Theorem C69_elements :
  forall (S : Scalar) (W : nat) (dbg : bool) (mm : mem S) (v : vertex) (h : halfedge) (f : facet),
    (vertex_is_valid W dbg v = Ok true <-> good_vertex W v) /\
    (halfedge_is_valid W dbg mm h = Ok true <-> good_halfedge W mm h) /\
    (facet_is_valid W dbg f = Ok true <-> good_facet W f).
Proof.
  intros. split; [apply vertex_valid_iff|]. split; [apply halfedge_valid_iff|apply facet_valid_iff].
Qed.
Print Assumptions C69_elements.

(** If all halfedges name existing elements of existing meshes, the check ends with
    an answer, or traps in a debug build. *)
Theorem C69_answers :
  forall (S : Scalar) (W : nat) (mm : mem S) (m : mesh S),
    (forall h, In h (m_halfedges m) -> readable mm h) ->
    (exists b, mesh_is_valid W false mm m = Ok b) /\
    (mesh_is_valid W true mm m = Ok true \/ mesh_is_valid W true mm m = Trap).
Proof.
  intros S W mm m H. split.
  - unfold mesh_is_valid.
    destruct (all_valid_total (vertex_is_valid W false) (m_vertices m)) as (b1 & E1); [intros v _; eexists; reflexivity|].
    rewrite E1. cbn [bind]. destruct b1; cbn [negb]; [|eauto].
    destruct (all_valid_total (halfedge_is_valid W false mm) (m_halfedges m)) as (b2 & E2).
    { intros h Hh. destruct (impl_total W mm h (H h Hh)) as (b & E). exists b. unfold halfedge_is_valid. rewrite E. reflexivity. }
    rewrite E2. cbn [bind]. destruct b2; cbn [negb]; [|eauto].
    apply all_valid_total. intros f _. eexists. reflexivity.
  - assert (K : forall A (p : A -> res bool) l, (forall x, In x l -> p x = Ok true \/ p x = Trap) -> all_valid p l = Ok true \/ all_valid p l = Trap).
    { intros A p l. induction l as [|x l IH]; intros Hp; cbn; [auto|].
      destruct (Hp x (or_introl eq_refl)) as [E|E]; rewrite E; cbn; [|auto]. apply IH. intros y Hy. apply Hp. right. exact Hy. }
    assert (C : forall b : bool, (let* _ := geo_assert true b in Ok b) = Ok true \/ (let* _ := geo_assert true b in Ok b) = Trap).
    { intros [|]; cbn; auto. }
    unfold mesh_is_valid.
    destruct (K _ (vertex_is_valid W true) (m_vertices m)) as [E|E]; [intros v _; apply C|rewrite E|rewrite E; auto]. cbn [bind negb].
    destruct (K _ (halfedge_is_valid W true mm) (m_halfedges m)) as [E2|E2]; [|rewrite E2|rewrite E2; auto].
    { intros h Hh. destruct (impl_total W mm h (H h Hh)) as (b & Eb). unfold halfedge_is_valid. rewrite Eb. cbn [bind]. apply C. }
    cbn [bind negb]. apply K. intros f _. apply C.
Qed.
Print Assumptions C69_answers.

(** In an accepted mesh with numbered halfedges no two halfedges have the same next,
    previous or opposite halfedge, and every halfedge is one. *)
Theorem C69_links :
  forall (S : Scalar) (W : nat) (dbg : bool) (mm : mem S) (a : addr) (m : mesh S),
    mm a = Some m -> numbered a m -> mesh_is_valid W dbg mm m = Ok true ->
    (forall i j g h, nth_error (m_halfedges m) i = Some g -> nth_error (m_halfedges m) j = Some h ->
       he_next g = he_next h \/ he_prev g = he_prev h \/ he_opp g = he_opp h -> i = j) /\
    (forall i, i < length (m_halfedges m) ->
       exists n p o, In n (m_halfedges m) /\ In p (m_halfedges m) /\ In o (m_halfedges m) /\ he_next p = i /\ he_prev n = i /\ he_opp o = i).
Proof.
  intros S W dbg mm a m Hm Hn Hv. apply C69_is_valid in Hv.
  assert (Lt : forall i h, nth_error (m_halfedges m) i = Some h -> i < length (m_halfedges m)) by (intros i h E; apply nth_error_Some; congruence).
  split.
  - intros i j g h Eg Eh Hc.
    destruct (nxt_ok W mm a m Hm Hn Hv i (Lt _ _ Eg)) as (_ & A1). destruct (nxt_ok W mm a m Hm Hn Hv j (Lt _ _ Eh)) as (_ & A2).
    destruct (prv_ok W mm a m Hm Hn Hv i (Lt _ _ Eg)) as (_ & B1). destruct (prv_ok W mm a m Hm Hn Hv j (Lt _ _ Eh)) as (_ & B2).
    destruct (opo_ok W mm a m Hm Hn Hv i (Lt _ _ Eg)) as (_ & C1). destruct (opo_ok W mm a m Hm Hn Hv j (Lt _ _ Eh)) as (_ & C2).
    assert (N1 : nxt m i = he_next g) by (unfold nxt; rewrite Eg; reflexivity). assert (N2 : nxt m j = he_next h) by (unfold nxt; rewrite Eh; reflexivity).
    assert (P1 : prv m i = he_prev g) by (unfold prv; rewrite Eg; reflexivity). assert (P2 : prv m j = he_prev h) by (unfold prv; rewrite Eh; reflexivity).
    assert (O1 : opo m i = he_opp g) by (unfold opo; rewrite Eg; reflexivity). assert (O2 : opo m j = he_opp h) by (unfold opo; rewrite Eh; reflexivity).
    destruct Hc as [E|[E|E]]; congruence.
  - intros i Hi. destruct (he_at W mm a m Hm Hn Hv i Hi) as (h & E & Ei & _ & v & o & n & p & _ & Eo & En & Ep & _ & Io & In' & Ip).
    exists n, p, o. split; [exact (nth_error_In _ _ En)|]. split; [exact (nth_error_In _ _ Ep)|]. split; [exact (nth_error_In _ _ Eo)|].
    split; [congruence|]. split; congruence.
Qed.
Print Assumptions C69_links.

(** In such a mesh the traversal of a facet ends, and runs once around the closed
    chain of its halfedge; only a halfedge that is its own next one is listed twice. *)
Theorem C69_traversal :
  forall (S : Scalar) (W : nat) (dbg : bool) (mm : mem S) (a : addr) (m : mesh S) (f : facet),
    mm a = Some m -> numbered a m -> mesh_is_valid W dbg mm m = Ok true ->
    f_ptr f = Some a -> f_he f < length (m_halfedges m) ->
    exists l, loop_from m (f_he f) l /\ calc_halfedges mm f = Ok (match l with [h] => [h; h] | _ => l end).
Proof.
  intros S W dbg mm a m f Hm Hn Hv Hf Hi. apply C69_is_valid in Hv. exact (calc_halfedges_loop W mm a m Hm Hn Hv f Hf Hi).
Qed.
Print Assumptions C69_traversal.

(** The check is not safe: a halfedge may name a vertex that does not exist without
    using the reserved index. *)
Theorem C69_unreadable_refuted :
  forall S : Scalar, exists (m : mesh S), numbered 7 m /\ mesh_is_valid 256 true (only 7 m) m = UB.
Proof.
  intros S. exists (@mkMesh S [] [mkHe 0 0 5 0 0 0 (Some 7)] [] []). split; [|reflexivity].
  intros [|[|i]] h E; cbn in E; try discriminate. apply Some_inj in E. subst. auto.
Qed.
Print Assumptions C69_unreadable_refuted.

(** Accepted meshes are not safe to navigate: the halfedge of a facet, the facet of
    a halfedge, the halfedges and the point of a vertex need not exist. *)
Definition astray (S : Scalar) : mesh S :=
  @mkMesh S [mkVertex 0 [0; 9] (Some 7)] [mkHe 0 5 0 0 0 0 (Some 7)] [mkFacet 9 (Some 7)] [].
Theorem C69_navigation_refuted :
  forall S : Scalar, exists (m : mesh S) v h f, numbered 7 m /\ mesh_is_valid 256 true (only 7 m) m = Ok true /\
    In v (m_vertices m) /\ In h (m_halfedges m) /\ In f (m_facets m) /\
    facet_getHalfedge (only 7 m) f = UB /\ getFacet (only 7 m) h = UB /\ calcHalfedges (only 7 m) v = UB /\ getVector (only 7 m) v = UB.
Proof.
  intros S. exists (astray S), (mkVertex 0 [0; 9] (Some 7)), (mkHe 0 5 0 0 0 0 (Some 7)), (mkFacet 9 (Some 7)).
  split. { intros [|[|i]] h E; cbn in E; try discriminate. apply Some_inj in E. subst. auto. }
  split; [reflexivity|]. split; [left; reflexivity|]. split; [left; reflexivity|]. split; [left; reflexivity|]. repeat split.
Qed.
Print Assumptions C69_navigation_refuted.

(** nor do the halfedges around a facet have to belong to it *)
Definition mixed (S : Scalar) : mesh S :=
  @mkMesh S [mkVertex 0 [0; 1; 2] (Some 7)]
    [mkHe 0 0 0 1 2 0 (Some 7); mkHe 1 1 0 2 0 1 (Some 7); mkHe 2 1 0 0 1 2 (Some 7)] [mkFacet 0 (Some 7); mkFacet 0 (Some 7)] [].
Theorem C69_facets_refuted :
  forall S : Scalar, exists (m : mesh S) f h l, numbered 7 m /\ mesh_is_valid 256 true (only 7 m) m = Ok true /\
    nth_error (m_facets m) 0 = Some f /\ calc_halfedges (only 7 m) f = Ok l /\ In h l /\ he_facet h <> 0.
Proof.
  intros S. exists (mixed S), (mkFacet 0 (Some 7)), (mkHe 1 1 0 2 0 1 (Some 7)), (m_halfedges (mixed S)).
  split. { intros [|[|[|[|i]]]] h E; cbn in E; try discriminate; apply Some_inj in E; subst; auto. }
  split; [reflexivity|]. split; [reflexivity|]. split; [reflexivity|]. split; [right; left; reflexivity|]. discriminate.
Qed.
Print Assumptions C69_facets_refuted.

(** the hypotheses of C69: the same mesh is accepted, numbered and readable *)
Example C69_example : forall S : Scalar, let m := mixed S in let mm := only 7 m in
  mm 7 = Some m /\ numbered 7 m /\ mesh_is_valid 256 false mm m = Ok true /\ (forall h, In h (m_halfedges m) -> readable mm h) /\
  calc_halfedges mm (mkFacet 1 (Some 7)) = Ok [mkHe 1 1 0 2 0 1 (Some 7); mkHe 2 1 0 0 1 2 (Some 7); mkHe 0 0 0 1 2 0 (Some 7)].
Proof.
  intros S m mm. split; [reflexivity|].
  split. { intros [|[|[|[|i]]]] h E; cbn in E; try discriminate; apply Some_inj in E; subst; auto. }
  split; [reflexivity|]. split; [|reflexivity].
  intros h [<-|[<-|[<-|[]]]] a E; cbn in E; apply Some_inj in E; subst a; exists m; (split; [reflexivity|]); cbn; lia.
Qed.
