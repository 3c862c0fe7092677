(** * Property theorems: printing mesh elements (C54) *)

From Coq Require Import List Arith Bool String Lia ZArith.
From Verif Require Import Scalar Linal Result ModelMesh SpecMesh ProofMesh ProofMeshOpp ProofMeshValid ProofMeshNormal ProofMeshMisc ModelPrint SpecPrint.
Import ListNotations.
Local Open Scope nat_scope.
Local Open Scope string_scope.
Local Open Scope list_scope.

(** ** C54: a printed vertex shows its own number and position. *)
Theorem C54_vertex :
  forall (S : Scalar) (L : Linal S) (a : addr) (ts : list (triangle S)) (m : mesh S) (i : nat) (v : vertex) (p : point S),
    well_formed L a ts m -> nth_error (m_vertices m) i = Some v -> nth_error (m_points m) i = Some p ->
    exists out, print_vertex (only a m) v = Ok out /\
      after "Vertex index: " out = Some (Idx i) /\ printed_coords out = coords_of p /\ lines out = 1.
Proof.
  intros S L a ts m i v p Hw Hv Hp. destruct (wf_vertex _ _ _ _ Hw i v Hv) as (Ei & Ea & _).
  assert (E : getVector (only a m) v = Ok p).
  { unfold getVector, deref, only. rewrite Ea, Nat.eqb_refl. cbn. unfold mesh_getVector, at_. rewrite Ei, Hp. reflexivity. }
  unfold print_vertex. rewrite E. eexists. split; [reflexivity|]. rewrite Ei. repeat split.
Qed.
Print Assumptions C54_vertex.

(** Everything printed for halfedge [c] of facet [k]: the number of its vertex, of
    its opposite halfedge, of its facet and the position are right; the number
    printed as its own is that of the first halfedge of the facet. *)
Theorem C54_halfedge_characterised :
  forall (S : Scalar) (L : Linal S) (a : addr) (ts : list (triangle S)) (m : mesh S) (k c : nat) (h : halfedge) (p : point S),
    well_formed L a ts m -> c < 3 -> nth_error (m_halfedges m) (3 * k + c) = Some h ->
    nth_error (m_points m) (he_vertex h) = Some p ->
    exists out, print_halfedge (only a m) h = Ok out /\
      after "; Halfedge vertex index: " out = Some (Idx (he_vertex h)) /\
      after "; Opposite halfedge index: " out = Some (Idx (he_opp h)) /\
      after "Facet index: " out = Some (Idx k) /\
      printed_coords out = coords_of p /\ lines out = 1 /\
      after "Halfedge index: " out = Some (Idx (3 * k)).
Proof.
  intros S L a ts m k c h p Hw Hc Hh Hp.
  destruct (he_nav L a ts m Hw (3 * k + c) (he_lt L a ts m Hw _ h Hh))
    as (h' & nx & pv & u & A1 & A2 & A3 & A4 & A5 & A6 & A7 & A8 & _).
  assert (h' = h) by congruence. subst h'.
  assert (Ek : (3 * k + c) / 3 = k) by (rewrite Nat.mul_comm, Nat.div_add_l, (Nat.div_small c) by lia; lia).
  rewrite Ek in A4. destruct (nth_error (m_facets m) (he_facet h)) as [f|] eqn:Ef; [|apply nth_error_None in Ef; lia].
  destruct (wf_facet _ _ _ _ Hw _ f Ef) as (E1 & _). rewrite A4 in E1.
  assert (D : deref (only a m) (Some a) = Ok m) by (unfold deref, only; rewrite Nat.eqb_refl; reflexivity).
  assert (F1 : getFacet (only a m) h = Ok f) by (unfold getFacet; rewrite A3, D; cbn; unfold at_; rewrite Ef; reflexivity).
  assert (F2 : getVertex (only a m) h = Ok u) by (unfold getVertex; rewrite A3, D; cbn; unfold at_; rewrite A6; reflexivity).
  assert (F3 : getVector (only a m) u = Ok p) by (unfold getVector; rewrite A8, D; cbn; unfold mesh_getVector, at_; rewrite A7, Hp; reflexivity).
  unfold print_halfedge. rewrite F1. cbn [bind]. rewrite F2. cbn [bind]. rewrite F3. cbn [bind].
  eexists. split; [reflexivity|]. rewrite E1, A7, A4. repeat split.
Qed.
Print Assumptions C54_halfedge_characterised.

(** A printed facet shows the facet number instead of the number of its halfedge. *)
Theorem C54_facet_characterised :
  forall (S : Scalar) (L : Linal S) (a : addr) (ts : list (triangle S)) (m : mesh S) (k : nat) (f : facet),
    well_formed L a ts m -> nth_error (m_facets m) k = Some f ->
    exists out, print_facet (only a m) f = Ok out /\ lines out = 1 /\
      f_he f = 3 * k /\ after "Facet halfedge index: " out = Some (Idx k).
Proof.
  intros S L a ts m k f Hw Hf. destruct (wf_facet _ _ _ _ Hw _ f Hf) as (E1 & E2).
  assert (Hk : k < List.length ts) by (rewrite <- (wf_facet_count _ _ _ _ Hw); apply nth_error_Some; congruence).
  destruct (he_nav L a ts m Hw (3 * k)) as (h & nx & pv & u & A1 & A2 & A3 & A4 & _); [lia|].
  rewrite (Nat.mul_comm 3 k), Nat.div_mul in A4 by lia.
  unfold print_facet, print_inline_facet, facet_getHalfedge, deref, only. rewrite E2, Nat.eqb_refl. cbn [bind]. unfold at_. rewrite E1, A1. cbn [bind].
  eexists. split; [reflexivity|]. rewrite A4. repeat split.
Qed.
Print Assumptions C54_facet_characterised.

(** Hence the property is false for every mesh: of every facet, the second and
    third halfedge are printed with the number of the first one, and of all
    facets but the first one the printed halfedge number is wrong. *)
Theorem C54_numbers_refuted :
  forall (S : Scalar) (L : Linal S) (a : addr) (ts : list (triangle S)) (m : mesh S),
    well_formed L a ts m ->
    (forall k c h, nth_error (m_halfedges m) (3 * k + c) = Some h -> c = 1 \/ c = 2 ->
      exists out j, print_halfedge (only a m) h = Ok out /\ after "Halfedge index: " out = Some (Idx j) /\ j <> he_index h) /\
    (forall k f, nth_error (m_facets m) k = Some f -> k <> 0 ->
      exists out j, print_facet (only a m) f = Ok out /\ after "Facet halfedge index: " out = Some (Idx j) /\ j <> f_he f).
Proof.
  intros S L a ts m Hw. split.
  - intros k c h Hh Hc. assert (Hc3 : c < 3) by lia.
    destruct (he_nav L a ts m Hw (3 * k + c) (he_lt L a ts m Hw _ h Hh))
      as (h' & nx & pv & u & A1 & A2 & A3 & A4 & A5 & A6 & A7 & A8 & A9 & A10 & A11 & A12 & A13 & A14 & A15 & A16).
    assert (h' = h) by congruence. subst h'.
    destruct (nth_error (m_points m) (he_vertex h)) as [p|] eqn:Ep; [|apply nth_error_None in Ep; lia].
    destruct (C54_halfedge_characterised S L a ts m k c h p Hw Hc3 Hh Ep) as (out & E & _ & _ & _ & _ & _ & Ho).
    exists out, (3 * k). split; [exact E|]. split; [exact Ho|]. lia.
  - intros k f Hf Hk. destruct (C54_facet_characterised S L a ts m k f Hw Hf) as (out & E & _ & E1 & Ho).
    exists out, k. split; [exact E|]. split; [exact Ho|]. lia.
Qed.
Print Assumptions C54_numbers_refuted.

Lemma print_all_lines {S : Scalar} {A} (pr : A -> res (list (piece S))) l :
  (forall x, In x l -> exists o, pr x = Ok o /\ lines o = 1) -> exists out, print_all pr l = Ok out /\ lines out = List.length l.
Proof.
  intros H. unfold print_all.
  assert (G : forall acc, exists out, foldM (fun out x => let* o := pr x in Ok (out ++ o)) l acc = Ok out /\ lines out = lines acc + List.length l).
  { induction l as [|x l IH]; intros acc; [exists acc; split; [reflexivity|cbn; lia]|].
    destruct (H x (or_introl eq_refl)) as (o & Eo & Lo). destruct (IH (fun y Hy => H y (or_intror Hy)) (acc ++ o)) as (out & E & Ll).
    exists out. split; [cbn [foldM]; rewrite Eo; exact E|]. rewrite Ll. unfold lines in *. rewrite filter_app, app_length, Lo. cbn. lia. }
  exact (G []).
Qed.

(** Printing all elements of a mesh never leaves defined behaviour and gives one
    line per element. *)
Theorem C54_print_all :
  forall (S : Scalar) (L : Linal S) (a : addr) (ts : list (triangle S)) (m : mesh S),
    well_formed L a ts m ->
    (exists out, print_all (print_vertex (only a m)) (m_vertices m) = Ok out /\ lines out = List.length (m_points m)) /\
    (exists out, print_all (print_halfedge (only a m)) (m_halfedges m) = Ok out /\ lines out = 3 * List.length ts) /\
    (exists out, print_all (print_facet (only a m)) (m_facets m) = Ok out /\ lines out = List.length ts).
Proof.
  intros S L a ts m Hw. rewrite <- (wf_vertex_count _ _ _ _ Hw), <- (wf_halfedge_count _ _ _ _ Hw), <- (wf_facet_count _ _ _ _ Hw).
  split; [|split]; apply print_all_lines.
  - intros v Hv. apply In_nth_error in Hv as (i & Hi).
    destruct (nth_error (m_points m) i) as [p|] eqn:Ep.
    + destruct (C54_vertex S L a ts m i v p Hw Hi Ep) as (out & E & _ & _ & Hl). exists out. auto.
    + exfalso. apply nth_error_None in Ep. rewrite <- (wf_vertex_count _ _ _ _ Hw) in Ep. apply nth_error_None in Ep. congruence.
  - intros h Hh. apply In_nth_error in Hh as (i & Hi).
    destruct (he_nav L a ts m Hw i (he_lt L a ts m Hw _ h Hi))
      as (h' & nx & pv & u & A1 & A2 & A3 & A4 & A5 & A6 & A7 & A8 & A9 & A10 & A11 & A12 & A13 & A14 & A15 & A16).
    assert (h' = h) by congruence. subst h'.
    destruct (nth_error (m_points m) (he_vertex h)) as [p|] eqn:Ep; [|apply nth_error_None in Ep; lia].
    rewrite (Nat.div_mod i 3) in Hi by lia.
    destruct (C54_halfedge_characterised S L a ts m (i / 3) (i mod 3) h p Hw (Nat.mod_upper_bound i 3 ltac:(lia)) Hi Ep) as (out & E & _ & _ & _ & _ & Hl & _).
    exists out. auto.
  - intros f Hf. apply In_nth_error in Hf as (k & Hk).
    destruct (C54_facet_characterised S L a ts m k f Hw Hk) as (out & E & Hl & _). exists out. auto.
Qed.
Print Assumptions C54_print_all.

(** A printed list of points: one line per point, and all coordinates in order. *)
Theorem C54_points :
  forall (S : Scalar) (l : list (point S)),
    lines (print_vecs l) = List.length l /\ printed_coords (print_vecs l) = List.concat (map coords_of l) /\
    (forall p : point S, printed_coords (print_vec p) = coords_of p /\ @lines S (print_vec p) = 1).
Proof.
  intros S l. split; [|split].
  - induction l as [|p l IH]; [reflexivity|]. unfold lines in *. cbn [print_vecs flat_map]. rewrite filter_app, app_length.
    change (flat_map print_vec l) with (print_vecs l). rewrite IH. reflexivity.
  - induction l as [|p l IH]; [reflexivity|]. unfold printed_coords in *. cbn [print_vecs flat_map map List.concat]. rewrite flat_map_app.
    change (flat_map print_vec l) with (print_vecs l). rewrite IH. reflexivity.
  - intros p. split; reflexivity.
Qed.
Print Assumptions C54_points.

(** the mesh of two triangles: its second facet and second halfedge *)
Example C54_example :
  let zL := raw_linal ZS 0%Z in
  let zp x y z : point ZS := @mk3 Z x y z in
  let ts : list (triangle ZS) := [(zp 0 0 0, zp 1 0 0, zp 0 1 0); (zp 1 0 0, zp 1 1 0, zp 0 1 0)]%Z in
  exists m, add_triangles zL 256 true 7 empty_mesh ts = Ok m /\ well_formed zL 7 ts m /\
    (exists h, nth_error (m_halfedges m) (3 * 1 + 1) = Some h /\ nth_error (m_points m) (he_vertex h) = Some (zp 1 1 0)%Z) /\
    (exists f, nth_error (m_facets m) 1 = Some f).
Proof.
  intros zL zp ts. destruct (add_wf zL 256 true 7 ts) as (m & E & Hw); [cbn; lia|]. exists m. split; [exact E|]. split; [exact Hw|].
  vm_compute in E. injection E as <-. split; eexists; split; reflexivity.
Qed.
