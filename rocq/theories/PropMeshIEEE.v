(** * Property theorems: meshes with floating point coordinates (C60, C61) *)

From Coq Require Import List Arith Bool Lia Permutation ZArith Reals Lra.
From Flocq Require Import Core BinarySingleNaN.
From Verif Require Import Scalar Linal Result ModelKdTree SpecKdTree SpecIEEE VecLemmas ProofKdTree ProofKdTreeUpdate
  ModelShapes ModelTransform ModelMesh SpecMesh ProofMesh ProofMeshMisc ModelTess SpecTess
  ProofTessComb ProofTessConn ProofTessMesh ProofTessSphere ProofTessRound ProofTess ProofTessCuboid ProofTessSafe ProofMeshIEEE.
Import ListNotations.
Local Open Scope nat_scope.

(** ** C60: validity and pairing of the halfedges, for every format.  If different
    points are at least [2^k] apart on one axis, where [2^(2k)] is not below the
    smallest positive number, everything is as over the reals. *)
Theorem C60_validity_partial :
  forall p e Hp He, (2 < p)%Z -> forall f g h pi,
  let S := IEEE p e Hp He f g h pi in
  forall (L : Linal S) (W : nat) (dbg : bool) (a : addr) (SZ : nat) (k : Z) (ts : list (triangle S)),
    well_separated k (fun x => In x (points_of ts)) -> veq_on L (fun x => In x (points_of ts)) ->
    3 * length ts < W ->
    exists m, built L W dbg a SZ ts = Ok m /\ well_formed L a ts m /\
      (at_most_twice (edges_of ts) <-> mesh_is_valid W dbg (only a m) m = Ok true) /\
      (~ at_most_twice (edges_of ts) <-> mesh_is_valid W dbg (only a m) m = if dbg then Trap else Ok false).
Proof.
  intros p e Hp He H2 f g h pi S L W dbg a SZ k ts Hs HG HW.
  destruct (built_valid L W dbg a SZ _ HG (near_ieee H2 f g h pi SZ _ k Hs) ts (fun x Hx => Hx) HW) as (m & E & H).
  destruct (built_ok L W dbg a SZ _ HG (near_ieee H2 f g h pi SZ _ k Hs) ts (fun x Hx => Hx) HW) as (m' & E' & Hw & _).
  assert (m' = m) by congruence. subst m'. exists m. split; [exact E|]. split; [exact Hw|exact H].
Qed.
Print Assumptions C60_validity_partial.

Theorem C60_pairing_partial :
  forall p e Hp He, (2 < p)%Z -> forall f g h pi,
  let S := IEEE p e Hp He f g h pi in
  forall (L : Linal S) (W : nat) (dbg : bool) (a : addr) (SZ : nat) (k : Z) (ts : list (triangle S)),
    well_separated k (fun x => In x (points_of ts)) -> veq_on L (fun x => In x (points_of ts)) ->
    3 * length ts < W ->
    exists m, built L W dbg a SZ ts = Ok m /\
      forall i, i < 3 * length ts ->
        exists f l, f <= i <= l /\ same_edge ts i f /\ same_edge ts i l /\ (forall j, same_edge ts i j -> f <= j <= l) /\
          opposite_of m i (if i =? f then l else f).
Proof.
  intros p e Hp He H2 f g h pi S L W dbg a SZ k ts Hs HG HW.
  destruct (built_ok L W dbg a SZ _ HG (near_ieee H2 f g h pi SZ _ k Hs) ts (fun x Hx => Hx) HW) as (m & E & Hw & Ho).
  exists m. split; [exact E|]. intros i Hi.
  destruct (nth_error_get (m_halfedges m) i) as (h' & Hh); [rewrite (wf_halfedge_count _ _ _ _ Hw); exact Hi|].
  destruct (Ho i h' Hh) as (f' & l & A & B & C & D & F). exists f', l.
  repeat (split; [assumption|]). exists h'. auto.
Qed.
Print Assumptions C60_pairing_partial.

(** in particular no halfedge of a closed surface is paired with its twin *)
Theorem C60_opposites_refuted :
  forall p e Hp He, (2 < p)%Z -> forall f g h pi,
  let S := IEEE p e Hp He f g h pi in
  forall (L : Linal S) (W : nat) (dbg : bool) (a : addr) (SZ : nat) (k : Z) (ts : list (triangle S)),
    well_separated k (fun x => In x (points_of ts)) -> veq_on L (fun x => In x (points_of ts)) ->
    3 * length ts < W -> closed_oriented (edges_of ts) ->
    exists m, built L W dbg a SZ ts = Ok m /\
      forall i, i < 3 * length ts ->
        (exists j u v, opposite_of m i i /\ runs m i u v /\ runs m j v u /\ j <> i) /\
        ~ (exists j u v, opposite_of m i j /\ runs m i u v /\ runs m j v u).
Proof.
  intros p e Hp He H2 f g h pi S L W dbg a SZ k ts Hs HG HW Hcl.
  exact (built_not_opposite L W dbg a SZ _ HG (near_ieee H2 f g h pi SZ _ k Hs) ts (fun x Hx => Hx) HW Hcl).
Qed.
Print Assumptions C60_opposites_refuted.

(** The hypothesis on the comparison of points holds for every comparison that is
    exact on the coordinates. *)
Theorem C60_exact_comparison :
  forall p e Hp He f g h pi,
  let S := IEEE p e Hp He f g h pi in
  forall (L : Linal S) (n : nat) (k : Z) (G : vec S n -> Prop),
    (forall x y : vec S n, veq L x y = true <-> forall i, i < n -> @seqb S (vnth s0 i x) (vnth s0 i y) = true) ->
    well_separated k G -> veq_on L G.
Proof. intros p e Hp He f g h pi S L n k G. exact (exact_on f g h pi L n G k). Qed.
Print Assumptions C60_exact_comparison.

(** Without the separation the statement is false: for the tetrahedron with edges
    of length [2^-600] in double precision all computed distances are zero, the
    halfedges are paired with halfedges of other edges, and the check that the
    library provides rejects the mesh. *)
Definition ftetra f g h pi (u : b64) : list (triangle (B64 f g h pi)) :=
  let z := B754_zero false in
  let o := @mk3 b64 z z z in let x := @mk3 b64 u z z in let y := @mk3 b64 z u z in let w := @mk3 b64 z z u in
  [(o, y, x); (o, x, w); (o, w, y); (x, y, w)].
(** numbers for the points, to compare edges by computation *)
Definition fcode (q : vec b64 3) : list bool :=
  let z := B754_zero false in [Beqb (vnth z 0 q) z; Beqb (vnth z 1 q) z; Beqb (vnth z 2 q) z].
Fixpoint nodupb {A} (eqb : A -> A -> bool) (l : list A) : bool :=
  match l with [] => true | x :: r => negb (existsb (eqb x) r) && nodupb eqb r end.
Lemma nodupb_NoDup {A B} (c : A -> B) (eqb : B -> B -> bool) l : (forall x, eqb x x = true) -> nodupb eqb (map c l) = true -> NoDup l.
Proof.
  intros Hr. induction l as [|x l IH]; cbn; [constructor|]. intros H. apply andb_true_iff in H as (H1 & H2).
  constructor; [|apply IH, H2]. intros Hx. apply negb_true_iff in H1.
  enough (E : existsb (eqb (c x)) (map c l) = true) by congruence. apply existsb_exists. exists (c x). split; [apply in_map, Hx|apply Hr].
Qed.
Lemma ftetra_edges f g h pi u : Beqb u (B754_zero false) = false -> NoDup (edges_of (ftetra f g h pi u)).
Proof.
  intros Hu. apply (nodupb_NoDup (fun e => fcode (fst e) ++ fcode (snd e)) (fun x y => if list_eq_dec bool_dec x y then true else false)).
  - intros x. destruct (list_eq_dec bool_dec x x); [reflexivity|contradiction].
  - cbv [ftetra edges_of flat_map tri_edges corner edges3 map app fst snd fcode vnth mk3]. rewrite Hu. vm_compute. reflexivity.
Qed.
Theorem C60_close_points_refuted :
  forall f g h pi, let S := B64 f g h pi in
  forall dbg, let ts := ftetra f g h pi (b64_pow 1 (-600)) in
    NoDup (edges_of ts) /\ at_most_twice (edges_of ts) /\
    exists m, built (raw_linal S s0) 256 dbg 7 256 ts = Ok m /\ length (m_points m) = 4 /\
      map (@he_opp) (m_halfedges m) = [9; 3; 8; 11; 10; 8; 4; 0; 8; 0; 4; 3] /\
      mesh_is_valid 256 dbg (only 7 m) m = if dbg then Trap else Ok false.
Proof.
  intros f g h pi S dbg ts.
  assert (N : NoDup (edges_of ts)) by (apply ftetra_edges; reflexivity).
  split; [exact N|]. split; [apply NoDup_twice, N|].
  assert (K : match built (raw_linal S s0) 256 dbg 7 256 ts with
    | Ok m => (length (m_points m), map (@he_opp) (m_halfedges m), mesh_is_valid 256 dbg (only 7 m) m)
    | _ => (0, [], UB) end = (4, [9; 3; 8; 11; 10; 8; 4; 0; 8; 0; 4; 3], if dbg then Trap else Ok false)).
  { destruct dbg; vm_compute; reflexivity. }
  destruct (built (raw_linal S s0) 256 dbg 7 256 ts) as [m| | | |]; try discriminate. exists m. injection K as K1 K2 K3. auto.
Qed.
Print Assumptions C60_close_points_refuted.

(** the same tetrahedron with edges of length 1 satisfies the hypotheses *)
Lemma raw_exact S e n (x y : vec (car S) n) : veq (raw_linal S e) x y = true <-> forall i, i < n -> @seqb S (vnth s0 i x) (vnth s0 i y) = true.
Proof.
  revert x y. induction n as [|n IH]; intros x y.
  - split; [intros _ i Hi; lia|reflexivity].
  - change (veq (raw_linal S e) x y) with (@seqb S (fst x) (fst y) && @vec_eqb S n (snd x) (snd y)).
    rewrite andb_true_iff. specialize (IH (snd x) (snd y)). change (veq (raw_linal S e) (snd x) (snd y)) with (@vec_eqb S n (snd x) (snd y)) in IH.
    rewrite IH. split.
    + intros (H0 & H) [|i] Hi; [exact H0|]. apply H. lia.
    + intros H. split; [apply (H 0); lia|]. intros i Hi. apply (H (Datatypes.S i)). lia.
Qed.
Example C60_example :
  forall f g h pi, let S := B64 f g h pi in let ts := ftetra f g h pi (b64_ofZ 1) in
    well_separated (-1) (fun x : point S => In x (points_of ts)) /\ veq_on (raw_linal S s0) (fun x => In x (points_of ts)) /\
    3 * length ts < 256 /\ NoDup (edges_of ts) /\ edges_of ts <> [].
Proof.
  intros f g h pi S ts.
  assert (Hs : well_separated (p := 53) (e := 1024) (-1) (fun x : point S => In x (points_of ts))).
  { apply (well_separated_sub f g h pi) with (G := fun x : point S => In x
      [@mk3 b64 (B754_zero false) (B754_zero false) (B754_zero false); @mk3 b64 (b64_ofZ 1) (B754_zero false) (B754_zero false);
       @mk3 b64 (B754_zero false) (b64_ofZ 1) (B754_zero false); @mk3 b64 (B754_zero false) (B754_zero false) (b64_ofZ 1)]).
    - intros x Hx. cbn [ts points_of ftetra flat_map app In] in Hx. cbn [In]. intuition auto.
    - apply (@separatedb_ok 53 1024 prec53 prec_emax64 eq_refl f g h pi); try lia. vm_compute. reflexivity. }
  split; [exact Hs|]. split; [apply (exact_on f g h pi _ _ _ (-1)); [intros x y; apply raw_exact|exact Hs]|].
  split; [cbn; lia|]. split; [apply ftetra_edges; reflexivity|discriminate].
Qed.

(** ** C61: tessellations, for every format.  As soon as the points computed for
    the vertices are different (and well separated), the mesh is the closed
    surface on exactly these points. *)
Section Forms.
  Context {S : Scalar} (W : nat) (dbg : bool) (a : addr).
  (** a valid closed mesh on the points [pts] *)
  Definition closed_on (pts : list (point S)) (nf : nat) (m : mesh S) : Prop :=
    mesh_is_valid W dbg (only a m) m = Ok true /\ closed_mesh m /\ Permutation (m_points m) pts /\
    length (m_vertices m) = length pts /\ length (m_halfedges m) = 3 * nf /\ length (m_facets m) = nf.
End Forms.

Lemma sphere_built :
  forall p e Hp He, (2 < p)%Z -> forall f g h pi,
  let S := IEEE p e Hp He f g h pi in
  forall (L : Linal S) W meq dbg self SZ (k : Z) (np na : nat) (o0 : point S) (s : sphere S),
    2 <= np -> 3 <= na -> 6 * na * (np - 1) < W -> meq hidentity hidentity = true ->
    let pts := sphere_points L np na s in
    NoDup pts -> well_separated k (fun x => In x pts) -> veq_on L (fun x => In x pts) ->
    exists m, mb_sphere L W meq dbg self SZ np na o0 s = Ok m /\ closed_on W dbg self pts (2 * na * (np - 1)) m /\
      exists pos, map pos (svs np na) = pts /\ well_formed L self (solid_triangles S (map (ctri np na) (ctags np na)) pos) m.
Proof.
  intros p e Hp He H2 f g h pi S L W meq dbg self SZ k np na o0 s Hnp Hna HW Hid pts Hnd Hs HG.
  assert (B1 : (np - 1) * na + 2 < W) by nia. assert (B2 : np < W) by nia. assert (B3 : na < W) by nia.
  assert (HN : 0 < (np - 1) * na + 2) by (rewrite Nat.add_comm; apply Nat.lt_0_succ).
  assert (HWl : 3 * length (map (ctri np na) (ctags np na)) < W) by (rewrite map_length, ctags_length by assumption; lia).
  assert (Hl : length pts = (np - 1) * na + 2) by apply sphere_points_length.
  assert (Epl : map (place meq (@hidentity S)) pts = pts).
  { rewrite <- (map_id pts) at 2. apply map_ext. intros q. unfold place. rewrite Hid. reflexivity. }
  destruct (surface_build_wf L W meq dbg self SZ _ HG (near_ieee H2 f g h pi SZ _ k Hs) (sv_ok np na) (senc np na) (svs np na) ((np - 1) * na + 2)
    (map (ctri np na) (ctags np na)) (svs_enum np na) (svs_ok np na) (senc_inj np na Hnp Hna) (senc_lt np na Hnp Hna) HN
    (sphere_corner np na Hnp Hna) (ctri_closed np na Hnp Hna) (sphere_connected np na Hnp Hna) (sphere_star np na Hnp Hna) HWl pts hidentity Hl)
    as (m & pos & E & H & Hpos & Hw).
  - rewrite Epl. exact Hnd.
  - rewrite Epl. auto.
  - exists m. rewrite Epl in H, Hpos. split; [|split; [|exists pos; split; [exact Hpos|exact Hw]]].
    + unfold mb_sphere, sb_build, sb_set_sphere, sb_set_azimuth, sb_set_polar, sb_init. cbn [sb_polar sb_azimuth sb_sphere sb_origin sb_radius].
      rewrite !(Nat.mod_small _ _ B2), !(Nat.mod_small _ _ B3). fold pts. rewrite Hl, Nat.mod_small by exact B1.
      rewrite (sphere_indices_eq np na Hnp Hna W B1 B2 B3), E. reflexivity.
    + destruct H as (V1 & V2 & V3 & V4 & V5 & V6). unfold closed_on. rewrite Hl.
      rewrite map_length, ctags_length in V5, V6 by assumption. split; [exact V1|]. split; [exact V2|]. split; [exact V3|]. split; [exact V4|]. split; [rewrite V5|rewrite V6]; lia.
Qed.

Theorem C61_sphere_partial :
  forall p e Hp He, (2 < p)%Z -> forall f g h pi,
  let S := IEEE p e Hp He f g h pi in
  forall (L : Linal S) W meq dbg self SZ (k : Z) (np na : nat) (o0 : point S) (s : sphere S),
    2 <= np -> 3 <= na -> 6 * na * (np - 1) < W -> meq hidentity hidentity = true ->
    let pts := sphere_points L np na s in
    NoDup pts -> well_separated k (fun x => In x pts) -> veq_on L (fun x => In x pts) ->
    exists m, mb_sphere L W meq dbg self SZ np na o0 s = Ok m /\ closed_on W dbg self pts (2 * na * (np - 1)) m.
Proof.
  intros p e Hp He H2 f g h pi S L W meq dbg self SZ k np na o0 s Hnp Hna HW Hid pts Hnd Hs HG.
  destruct (sphere_built p e Hp He H2 f g h pi L W meq dbg self SZ k np na o0 s Hnp Hna HW Hid Hnd Hs HG) as (m & A & B & _). exists m. split; assumption.
Qed.
Print Assumptions C61_sphere_partial.

(** Cone and cylinder: the points are placed with the matrix computed from the
    axis, whatever the linear algebra library returns for it. *)
Definition axis_placement {S : Scalar} (rot_align : hvec S -> hvec S -> hmat S) (s : segment S 3) : hmat S :=
  set_translation (rot_align (mk4 s0 s0 s1 s1) (to_hvec (segment_direction s))) (g_source s).
Definition cone_vertices {S : Scalar} (meq : hmat S -> hmat S -> bool) rot_align (na : nat) (c : cone S) : list (point S) :=
  map (place meq (axis_placement rot_align (co_segment c)))
    (circle_points (mk3 s0 s0 s0) (co_radius c) na CCW ++ [mk3 s0 s0 (segment_length (co_segment c))]).
Definition cylinder_vertices {S : Scalar} (meq : hmat S -> hmat S -> bool) rot_align (na : nat) (c : cylinder S) : list (point S) :=
  map (place meq (axis_placement rot_align (cy_segment c)))
    (circle_points (mk3 s0 s0 s0) (cy_radius c) na CCW ++ circle_points (mk3 s0 s0 (segment_length (cy_segment c))) (cy_radius c) na CW).

Lemma geo_assert_imp dbg b : (dbg = true -> b = true) -> geo_assert dbg b = Ok tt.
Proof. intros H. destruct dbg; [rewrite H by reflexivity; reflexivity|destruct b; reflexivity]. Qed.

Lemma cone_built :
  forall p e Hp He, (2 < p)%Z -> forall f g h pi,
  let S := IEEE p e Hp He f g h pi in
  forall (L : Linal S) W meq dbg self SZ rot_align (k : Z) (na : nat) (c : cone S),
    3 <= na -> 6 * na < W ->
    (dbg = true -> isZero L (leps L) (segment_length (co_segment c)) = false /\
                   isEq L (leps L) (vlength (segment_direction (co_segment c))) s1 = true) ->
    let pts := cone_vertices meq rot_align na c in
    NoDup pts -> well_separated k (fun x => In x pts) -> veq_on L (fun x => In x pts) ->
    exists m, mb_cone L W meq dbg self SZ rot_align na c = Ok (Some m) /\ closed_on W dbg self pts (2 * na) m /\
      exists pos, map pos (kvs na) = pts /\ well_formed L self (solid_triangles S (map (ktri na) (ktags na)) pos) m.
Proof.
  intros p e Hp He H2 f g h pi S L W meq dbg self SZ rot_align k na c Hna HW Hd pts Hnd Hs HG.
  assert (HWl : 3 * length (map (ktri na) (ktags na)) < W) by (rewrite map_length, ktags_length; lia).
  assert (HN : 0 < na + 2) by lia.
  set (base := circle_points (mk3 s0 s0 s0) (co_radius c) na CCW ++ [mk3 s0 s0 (segment_length (co_segment c))]).
  assert (Hl : length base = na + 2) by (unfold base; rewrite app_length, circle_points_length; cbn [length]; lia).
  destruct (surface_build_wf L W meq dbg self SZ _ HG (near_ieee H2 f g h pi SZ _ k Hs) (kv_ok na) (kenc na) (kvs na) (na + 2)
    (map (ktri na) (ktags na)) (kvs_enum na) (kvs_ok na) (kenc_inj na) (kenc_lt na) HN (cone_corner na Hna)
    (ktri_closed na Hna) (cone_connected na Hna) (cone_star na Hna) HWl base (axis_placement rot_align (co_segment c)) Hl Hnd (fun q Hq => Hq))
    as (m & pos & E & H & Hpos & Hw).
  exists m. split; [|split; [|exists pos; split; [exact Hpos|exact Hw]]].
  - unfold mb_cone, cone_build. rewrite Nat.mod_small by lia. rewrite geo_assert_true by reflexivity. cbn [bind].
    rewrite (geo_assert_imp dbg (negb (isZero L (leps L) (segment_length (co_segment c))))) by (intros D; rewrite (proj1 (Hd D)); reflexivity).
    cbn [bind]. rewrite (geo_assert_imp dbg (isEq L _ _ _)) by (intros D; apply (Hd D)). cbn [bind].
    destruct (cone_triangles_eq W na c) as (pts' & Et & Ep); [lia|]. rewrite Et. cbn [bind].
    rewrite Ep. fold base. setoid_rewrite E. reflexivity.
  - destruct H as (V1 & V2 & V3 & V4 & V5 & V6). unfold closed_on. rewrite map_length, ktags_length in V5, V6.
    split; [exact V1|]. split; [exact V2|]. split; [exact V3|]. unfold pts, cone_vertices. rewrite map_length. fold base. rewrite Hl.
    split; [exact V4|]. split; [exact V5|exact V6].
Qed.

Theorem C61_cone_partial :
  forall p e Hp He, (2 < p)%Z -> forall f g h pi,
  let S := IEEE p e Hp He f g h pi in
  forall (L : Linal S) W meq dbg self SZ rot_align (k : Z) (na : nat) (c : cone S),
    3 <= na -> 6 * na < W ->
    (dbg = true -> isZero L (leps L) (segment_length (co_segment c)) = false /\
                   isEq L (leps L) (vlength (segment_direction (co_segment c))) s1 = true) ->
    let pts := cone_vertices meq rot_align na c in
    NoDup pts -> well_separated k (fun x => In x pts) -> veq_on L (fun x => In x pts) ->
    exists m, mb_cone L W meq dbg self SZ rot_align na c = Ok (Some m) /\ closed_on W dbg self pts (2 * na) m.
Proof.
  intros p e Hp He H2 f g h pi S L W meq dbg self SZ rot_align k na c Hna HW Hd pts Hnd Hs HG.
  destruct (cone_built p e Hp He H2 f g h pi L W meq dbg self SZ rot_align k na c Hna HW Hd Hnd Hs HG) as (m & A & B & _). exists m. split; assumption.
Qed.
Print Assumptions C61_cone_partial.

Lemma cylinder_built :
  forall p e Hp He, (2 < p)%Z -> forall f g h pi,
  let S := IEEE p e Hp He f g h pi in
  forall (L : Linal S) W meq dbg self SZ rot_align (k : Z) (na : nat) (c : cylinder S),
    3 <= na -> 12 * na < W ->
    let pts := cylinder_vertices meq rot_align na c in
    NoDup pts -> well_separated k (fun x => In x pts) -> veq_on L (fun x => In x pts) ->
    exists m, mb_cylinder L W meq dbg self SZ rot_align na c = Ok (Some m) /\ closed_on W dbg self pts (4 * na) m /\
      exists pos, map pos (yvs na) = pts /\ well_formed L self (solid_triangles S (map (ytri na) (ytags na)) pos) m.
Proof.
  intros p e Hp He H2 f g h pi S L W meq dbg self SZ rot_align k na c Hna HW pts Hnd Hs HG.
  assert (HWl : 3 * length (map (ytri na) (ytags na)) < W) by (rewrite map_length, ytags_length; lia).
  assert (HN : 0 < 2 * na + 2) by lia.
  set (base := circle_points (mk3 s0 s0 s0) (cy_radius c) na CCW ++ circle_points (mk3 s0 s0 (segment_length (cy_segment c))) (cy_radius c) na CW).
  assert (Hl : length base = 2 * na + 2) by (unfold base; rewrite app_length, !circle_points_length; lia).
  destruct (surface_build_wf L W meq dbg self SZ _ HG (near_ieee H2 f g h pi SZ _ k Hs) (yv_ok na) (yenc na) (yvs na) (2 * na + 2)
    (map (ytri na) (ytags na)) (yvs_enum na) (yvs_ok na) (yenc_inj na) (yenc_lt na) HN (cyl_corner na Hna)
    (ytri_closed na Hna) (cyl_connected na Hna) (cyl_star na Hna) HWl base (axis_placement rot_align (cy_segment c)) Hl Hnd (fun q Hq => Hq))
    as (m & pos & E & H & Hpos & Hw).
  exists m. split; [|split; [|exists pos; split; [exact Hpos|exact Hw]]].
  - unfold mb_cylinder, cylinder_build. rewrite Nat.mod_small by lia. rewrite geo_assert_true by reflexivity. cbn [bind].
    destruct (cylinder_triangles_eq W dbg na c) as (pts' & Et & Ep); [lia|lia|]. rewrite Et. cbn [bind].
    rewrite Ep. fold base. setoid_rewrite E. reflexivity.
  - destruct H as (V1 & V2 & V3 & V4 & V5 & V6). unfold closed_on. rewrite map_length, ytags_length in V5, V6.
    split; [exact V1|]. split; [exact V2|]. split; [exact V3|]. unfold pts, cylinder_vertices. rewrite map_length. fold base. rewrite Hl.
    split; [exact V4|]. split; [exact V5|exact V6].
Qed.

Theorem C61_cylinder_partial :
  forall p e Hp He, (2 < p)%Z -> forall f g h pi,
  let S := IEEE p e Hp He f g h pi in
  forall (L : Linal S) W meq dbg self SZ rot_align (k : Z) (na : nat) (c : cylinder S),
    3 <= na -> 12 * na < W ->
    let pts := cylinder_vertices meq rot_align na c in
    NoDup pts -> well_separated k (fun x => In x pts) -> veq_on L (fun x => In x pts) ->
    exists m, mb_cylinder L W meq dbg self SZ rot_align na c = Ok (Some m) /\ closed_on W dbg self pts (4 * na) m.
Proof.
  intros p e Hp He H2 f g h pi S L W meq dbg self SZ rot_align k na c Hna HW pts Hnd Hs HG.
  destruct (cylinder_built p e Hp He H2 f g h pi L W meq dbg self SZ rot_align k na c Hna HW Hnd Hs HG) as (m & A & B & _). exists m. split; assumption.
Qed.
Print Assumptions C61_cylinder_partial.

(** Boxes with sides along the axes, given by the origin [o] and the diagonal [d]:
    the only condition besides the absence of overflow is that adding the diagonal
    moves the origin by at least [2^k] on every axis. *)
Lemma mb_cuboid_ok {S} (L : Linal S) W dbg self SZ o0 d0 c m : cuboid_mesh L W dbg self SZ c = Ok m -> mb_cuboid L W dbg self SZ o0 d0 c = Ok m.
Proof. intros E. unfold mb_cuboid, cb_build, cb_set_cuboid. cbn [cb_cube]. rewrite E. reflexivity. Qed.

Theorem C61_box_partial :
  forall p e Hp He, (2 < p)%Z -> forall f g h pi,
  let S := IEEE p e Hp He f g h pi in
  forall (L : Linal S) W dbg self SZ (k : Z) (o0 d0 o d : point S),
    36 < W -> (3 - e - p <= 2 * k)%Z ->
    finite_pt (p := p) (e := e) o -> finite_pt (p := p) (e := e) d -> finite_pt (p := p) (e := e) (vadd d o) ->
    (forall i, i < 3 -> vnth s0 i o <> B754_zero true /\ vnth s0 i d <> B754_zero true) ->
    (forall i, i < 3 -> (bpow radix2 k <= Rabs (@fval p e 3 i (vadd d o) - @fval p e 3 i o))%R) ->
    veq_on L (fun q : point S => forall i, i < 3 -> vnth s0 i q = vnth s0 i o \/ vnth s0 i q = vnth s0 i (vadd d o)) ->
    exists m, mb_cuboid L W dbg self SZ o0 d0 (cuboid_diag o d) = Ok m /\
      (forall q, In q (m_points m) <-> forall i, i < 3 -> vnth s0 i q = vnth s0 i o \/ vnth s0 i q = vnth s0 i (vadd d o)) /\
      NoDup (m_points m) /\ closed_on W dbg self (m_points m) 12 m /\ length (m_points m) = 8.
Proof.
  intros p e Hp He H2 f g h pi S L W dbg self SZ k o0 d0 o d HW Hk Fo Fd Fh Hz Ha HG.
  destruct (box_points f g h pi o (vadd d o) k Hk Fo Fh Ha) as (Hnd & Hs & Hin).
  set (l := map (fcorner f g h pi o (vadd d o)) (seq 0 8)) in *.
  assert (HG' : veq_on L (fun x => In x l)) by (intros x y Hx Hy; apply HG; apply Hin; assumption).
  assert (Et : cuboid_triangles (cuboid_diag o d) = solid_triangles S btris (fcorner f g h pi o (vadd d o))).
  { destruct o as (a0 & a1 & a2 & []), d as (b0 & b1 & b2 & []).
    pose proof (Hz 0 ltac:(lia)) as (Z0 & Z1). pose proof (Hz 1 ltac:(lia)) as (Z2 & Z3). pose proof (Hz 2 ltac:(lia)) as (Z4 & Z5).
    destruct (unit_sides f g h pi b0 b1 b2 (Fd 0 ltac:(lia)) (Fd 1 ltac:(lia)) (Fd 2 ltac:(lia)) Z1 Z3 Z5)
      as (z01 & z02 & z10 & z12 & z20 & z21 & Y1 & Y2 & Y3 & Y4 & Y5 & Y6 & E1 & E2 & E3).
    refine (eq_trans (f_equal3 (fun x y z : point S => cuboid_triangles (@mkCuboid S (mk3 a0 a1 a2) x y z)) E1 E2 E3) _).
    apply (box_triangles f g h pi a0 a1 a2 b0 b1 b2 z01 z02 z10 z12 z20 z21); try assumption;
      first [exact (Fo 0 ltac:(lia))|exact (Fo 1 ltac:(lia))|exact (Fo 2 ltac:(lia))
            |exact (Fd 0 ltac:(lia))|exact (Fd 1 ltac:(lia))|exact (Fd 2 ltac:(lia))
            |exact (Fh 0 ltac:(lia))|exact (Fh 1 ltac:(lia))|exact (Fh 2 ltac:(lia))]. }
  destruct (cuboid_surface H2 f g h pi L W dbg self SZ (cuboid_diag o d) _ k HW Et Hnd Hs HG') as (m & E & V1 & V2 & V3 & V4 & V5 & V6).
  assert (V7 : length (m_points m) = 8) by (rewrite (Permutation_length V3); reflexivity).
  exists m. split; [exact (mb_cuboid_ok L W dbg self SZ o0 d0 _ m E)|].
  split; [intros q; refine (iff_trans _ (Hin q)); split; apply Permutation_in; [exact V3|symmetry; exact V3]|].
  split; [apply (Permutation_NoDup (l := l)); [symmetry; exact V3|exact Hnd]|].
  split; [|exact V7]. split; [exact V1|]. split; [exact V2|]. split; [reflexivity|]. split; [exact (eq_trans V4 (eq_sym V7))|]. split; [exact V5|exact V6].
Qed.
Print Assumptions C61_box_partial.

(** A rotated cuboid: the unit cube turned around the z axis by an angle with
    cosine 0.6 and sine 0.8 and moved to (1, 2, 3), in double precision.  The
    corners are computed by adding the sides in different orders, the results
    differ by rounding, and the mesh has twelve vertices.  A debug build stops at
    the assertion that there are eight; a release build returns a mesh with holes:
    some halfedges have no twin. *)
Definition b64_quot f g h pi (n d : Z) : b64 := @sdiv (B64 f g h pi) (b64_ofZ n) (b64_ofZ d).
Definition turned_cube f g h pi : cuboid (B64 f g h pi) :=
  let z := B754_zero false in let q := b64_quot f g h pi in
  @mkCuboid (B64 f g h pi) (mk3 (b64_ofZ 1) (b64_ofZ 2) (b64_ofZ 3)) (mk3 (q 6 10)%Z (q 8 10)%Z z) (mk3 (q (-8) 10)%Z (q 6 10)%Z z) (mk3 z z (b64_ofZ 1)).
(** the halfedges without a twin *)
Definition open_halfedges {S} (m : mesh S) : list nat :=
  let hs := m_halfedges m in
  let start i := match nth_error hs i with Some x => he_vertex x | None => 0 end in
  let target i := match nth_error hs i with Some x => start (he_next x) | None => 0 end in
  filter (fun i => negb (existsb (fun j => (start j =? target i) && (target j =? start i)) (seq 0 (length hs)))) (seq 0 (length hs)).
Lemma open_not_closed {S} (m : mesh S) i : In i (open_halfedges m) -> ~ closed_mesh m.
Proof.
  intros Hi Hc. apply filter_In in Hi as (Hl & Hi). apply in_seq in Hl as (_ & Hl).
  destruct (cm_twin _ Hc i Hl) as (u & v & (x & nx & A1 & A2 & A3 & A4) & _ & j & (y & ny & B1 & B2 & B3 & B4) & _).
  apply negb_true_iff in Hi. apply Bool.not_true_iff_false in Hi. apply Hi, existsb_exists. exists j.
  assert (Hj : j < length (m_halfedges m)) by (apply nth_error_Some; rewrite B1; discriminate).
  split; [apply in_seq; split; [apply Nat.le_0_l|exact Hj]|].
  rewrite A1, B1, A3, B3, A2, A4, B2, B4, !Nat.eqb_refl. reflexivity.
Qed.
Theorem C61_cuboid_refuted :
  forall f g h pi, let S := B64 f g h pi in
  forall o0 d0 : point S, let c := turned_cube f g h pi in
    mb_cuboid (raw_linal S s0) 256 true 7 256 o0 d0 c = Trap /\
    exists m, mb_cuboid (raw_linal S s0) 256 false 7 256 o0 d0 c = Ok m /\ length (m_points m) = 12 /\
      open_halfedges m = [6; 9; 10; 18; 19; 22; 25; 27; 30; 34] /\ ~ closed_mesh m.
Proof.
  intros f g h pi S o0 d0 c. split.
  - assert (K : match mb_cuboid (raw_linal S s0) 256 true 7 256 o0 d0 c with Trap => true | _ => false end = true) by (vm_compute; reflexivity).
    destruct (mb_cuboid _ _ _ _ _ _ _ _); try discriminate. reflexivity.
  - assert (K : match mb_cuboid (raw_linal S s0) 256 false 7 256 o0 d0 c with
      | Ok m => (length (m_points m), open_halfedges m) | _ => (0, []) end = (12, [6; 9; 10; 18; 19; 22; 25; 27; 30; 34])) by (vm_compute; reflexivity).
    destruct (mb_cuboid _ _ _ _ _ _ _ _) as [m| | | |]; try discriminate. injection K as K1 K2. exists m.
    split; [reflexivity|]. split; [exact K1|]. split; [exact K2|]. apply (open_not_closed m 6). rewrite K2. left. reflexivity.
Qed.
Print Assumptions C61_cuboid_refuted.

(** Absorption: with the origin at [2^60] the diagonal (1, 1, 1) disappears in the
    addition, all corners coincide; a debug build stops. *)
Theorem C61_box_absorbed_refuted :
  forall f g h pi, let S := B64 f g h pi in
  forall o0 d0 : point S, let b := b64_pow 1 60 in let c := @cuboid_diag S (mk3 b b b) (mk3 (b64_ofZ 1) (b64_ofZ 1) (b64_ofZ 1)) in
    mb_cuboid (raw_linal S s0) 256 true 7 256 o0 d0 c = Trap /\
    exists m, mb_cuboid (raw_linal S s0) 256 false 7 256 o0 d0 c = Ok m /\ length (m_points m) = 1.
Proof.
  intros f g h pi S o0 d0 b c. split.
  - assert (K : match mb_cuboid (raw_linal S s0) 256 true 7 256 o0 d0 c with Trap => true | _ => false end = true) by (vm_compute; reflexivity).
    destruct (mb_cuboid _ _ _ _ _ _ _ _); try discriminate. reflexivity.
  - assert (K : match mb_cuboid (raw_linal S s0) 256 false 7 256 o0 d0 c with
      | Ok m => length (m_points m) | _ => 0 end = 1) by (vm_compute; reflexivity).
    destruct (mb_cuboid _ _ _ _ _ _ _ _) as [m| | | |]; try discriminate. exists m. auto.
Qed.
Print Assumptions C61_box_absorbed_refuted.

(** the hypotheses of C61: a box with a corner at (1, 2, 3) and the diagonal
    (1, -2, 4); an octahedron, a cone and a cylinder on four points, with tables
    instead of the trigonometric functions *)
Example C61_box_example :
  forall f g h pi, let S := B64 f g h pi in
  let o : point S := mk3 (b64_ofZ 1) (b64_ofZ 2) (b64_ofZ 3) in let d : point S := mk3 (b64_ofZ 1) (b64_ofZ (-2)) (b64_ofZ 4) in
    36 < 256 /\ (3 - 1024 - 53 <= 2 * (-1))%Z /\
    finite_pt (p := 53) (e := 1024) o /\ finite_pt (p := 53) (e := 1024) d /\ finite_pt (p := 53) (e := 1024) (vadd d o) /\
    (forall i, i < 3 -> vnth s0 i o <> B754_zero true /\ vnth s0 i d <> B754_zero true) /\
    (forall i, i < 3 -> (bpow radix2 (-1) <= Rabs (@fval 53 1024 3 i (vadd d o) - @fval 53 1024 3 i o))%R) /\
    veq_on (raw_linal S s0) (fun q : point S => forall i, i < 3 -> vnth s0 i q = vnth s0 i o \/ vnth s0 i q = vnth s0 i (vadd d o)).
Proof.
  intros f g h pi S o d.
  assert (Fo : finite_pt (p := 53) (e := 1024) o) by (intros [|[|[|i]]] Hi; [reflexivity..|lia]).
  assert (Fd : finite_pt (p := 53) (e := 1024) d) by (intros [|[|[|i]]] Hi; [reflexivity..|lia]).
  assert (Fh : finite_pt (p := 53) (e := 1024) (vadd d o)) by (intros [|[|[|i]]] Hi; [reflexivity..|lia]).
  assert (Hk : (3 - 1024 - 53 <= 2 * (-1))%Z) by lia.
  assert (Ha : forall i, i < 3 -> (bpow radix2 (-1) <= Rabs (@fval 53 1024 3 i (vadd d o) - @fval 53 1024 3 i o))%R).
  { intros i Hi. apply (@apart_computed 53 1024 prec53 prec_emax64 eq_refl); [exact (Fh i Hi)|exact (Fo i Hi)|lia|lia|].
    destruct i as [|[|[|i]]]; [vm_compute; reflexivity..|lia]. }
  split; [lia|]. split; [exact Hk|]. split; [exact Fo|]. split; [exact Fd|]. split; [exact Fh|].
  split; [intros [|[|[|i]]] Hi; [split; discriminate..|lia]|]. split; [exact Ha|].
  destruct (@box_points 53 1024 prec53 prec_emax64 f g h pi o (vadd d o) (-1) Hk Fo Fh Ha) as (_ & Hs & Hin).
  pose proof (exact_on f g h pi (raw_linal S s0) 3 _ (-1) (fun x y => raw_exact S s0 3 x y) Hs) as HG.
  intros x y Hx Hy. apply HG; apply Hin; assumption.
Qed.
Definition quarter (x : b64) : nat :=
  let y := Babs x in if Bltb y (b64_ofZ 1) then 0 else if Bltb y (b64_ofZ 2) then 1 else if Bltb y (b64_ofZ 4) then 2 else 3.
Definition qcos (x : b64) : b64 := nth (quarter x) [b64_ofZ 1; B754_zero false; b64_ofZ (-1)] (B754_zero false).
Definition qsin (x : b64) : b64 :=
  let y := nth (quarter x) [B754_zero false; b64_ofZ 1; B754_zero false] (b64_ofZ (-1)) in if Bltb x (B754_zero false) then Bopp y else y.
Definition QS : Scalar := B64 qcos qsin (fun x => x) (b64_ofZ 3).
Definition qsphere : sphere QS := @mkSphere QS (mk3 (b64_ofZ 1) (b64_ofZ 2) (b64_ofZ 3)) (b64_ofZ 2).
Definition qaxis : segment QS 3 := @mkSegment QS 3 (mk3 (b64_ofZ 1) (b64_ofZ 2) (b64_ofZ 3)) (mk3 (b64_ofZ 1) (b64_ofZ 2) (b64_ofZ 5)).
Definition qid (x y : hvec QS) : hmat QS := hidentity.
(** different points, far enough apart, on which the exact comparison is equality *)
Definition good_vertices (pts : list (point QS)) : Prop :=
  NoDup pts /\ well_separated (p := 53) (e := 1024) (-1) (fun x : point QS => In x pts) /\
  veq_on (raw_linal QS s0) (fun x => In x pts).
Lemma good_vertices_ok pts :
  @separatedb 53 1024 prec53 prec_emax64 qcos qsin (fun x => x) (b64_ofZ 3) (-1) pts = true -> good_vertices pts.
Proof.
  intros H. destruct (@separatedb_ok 53 1024 prec53 prec_emax64 eq_refl _ _ _ _ (-1) pts ltac:(lia) ltac:(lia) ltac:(lia) H) as (H1 & H2).
  split; [exact H1|]. split; [exact H2|].
  exact (exact_on _ _ _ _ (raw_linal QS s0) 3 _ (-1) (fun x y => raw_exact QS s0 3 x y) H2).
Qed.
Example C61_round_example :
  good_vertices (sphere_points (raw_linal QS s0) 2 4 qsphere) /\
  good_vertices (cone_vertices (fun _ _ => false) qid 4 (@mkCone QS qaxis (b64_ofZ 2))) /\
  isZero (raw_linal QS s0) (leps (raw_linal QS s0)) (segment_length qaxis) = false /\
  isEq (raw_linal QS s0) (leps (raw_linal QS s0)) (vlength (segment_direction qaxis)) s1 = true /\
  good_vertices (cylinder_vertices (fun _ _ => false) qid 4 (@mkCylinder QS qaxis (b64_ofZ 2))).
Proof.
  split; [apply good_vertices_ok; vm_compute; reflexivity|]. split; [apply good_vertices_ok; vm_compute; reflexivity|].
  split; [vm_compute; reflexivity|]. split; [vm_compute; reflexivity|]. apply good_vertices_ok; vm_compute; reflexivity.
Qed.
