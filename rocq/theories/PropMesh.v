(** * Property theorems: halfedge meshes (C26-C31, C40, C47-C50) *)

From Coq Require Import List Arith Bool Lia Sorting.Sorted Reals Lra ZArith.
From Verif Require Import Scalar Linal Result SpecReal VecR ModelKdTree SpecKdTree
  ModelMesh SpecMesh ProofMesh ProofMeshOpp ProofMeshValid ProofMeshNormal ProofMeshMisc.
Import ListNotations.
Local Open Scope nat_scope.

(** Examples: a tetrahedron with integer coordinates, and over the reals. *)
Definition zL : Linal ZS := raw_linal ZS 0%Z.
Definition zp (x y z : Z) : point ZS := @mk3 Z x y z.
Definition ztetra : list (triangle ZS) :=
  let o := zp 0 0 0 in let x := zp 1 0 0 in let y := zp 0 1 0 in let z := zp 0 0 1 in
  [(o, y, x); (o, x, z); (o, z, y); (x, y, z)].
Definition rp (x y z : R) : point (RS 1) := @mk3 R x y z.
Definition rL : Linal (RS 1) := raw_linal (RS 1) 0%R.
Definition rtetra : list (triangle (RS 1)) :=
  let o := rp 0 0 0 in let x := rp 1 0 0 in let y := rp 0 1 0 in let z := rp 0 0 1 in
  [(o, y, x); (o, x, z); (o, z, y); (x, y, z)].

(** ** C26: construction.  For every scalar type and every comparison of points,
    every sequence of triangles (also degenerate or repeated ones) can be added
    as long as the indices fit, and the mesh is the well formed mesh of the
    sequence. *)
Theorem C26_add_triangles :
  forall (S : Scalar) (L : Linal S) (W : nat) (dbg : bool) (a : addr) (ts : list (triangle S)),
    3 * length ts < W ->
    exists m, add_triangles L W dbg a empty_mesh ts = Ok m /\ well_formed L a ts m.
Proof. exact (fun S => @add_wf S). Qed.
Print Assumptions C26_add_triangles.

(** Any interleaving of adding triangles and pairing halfedges that runs to the
    end leaves the well formed mesh of the added triangles. *)
Theorem C26_history :
  forall (S : Scalar) (L : Linal S) (W : nat) (dbg : bool) (a : addr) (SZ : nat)
         (hist : list (mesh_op)) (m : mesh S),
    3 * length (added hist) < W ->
    mesh_run L W dbg a SZ hist = Ok m -> well_formed L a (added hist) m.
Proof. exact (fun S => @history_wf S). Qed.
Print Assumptions C26_history.

(** non-vacuity: 8-bit indices, a history with two pairings and a degenerate triangle *)
Example C26_example :
  let hist := map (@AddTriangle ZS) ztetra ++ [SetOpposites; AddTriangle (zp 0 0 0, zp 0 0 0, zp 5 0 0); SetOpposites] in
  3 * length (added hist) < 256 /\
  match mesh_run zL 256 true 7 256 hist with
  | Ok m => length (m_points m) = 5 /\ length (m_halfedges m) = 15 /\ length (m_facets m) = 5
  | _ => False
  end.
Proof. split; [cbn; lia|]. vm_compute. auto. Qed.

(** The restriction on the number of triangles is needed: with 8-bit indices,
    adding 86 triangles with pairwise different corners does not terminate in a
    release build (MeshPoints::contains, whose counter wraps) and traps in a debug
    build. *)
Definition many : list (triangle ZS) :=
  map (fun k => let z := Z.of_nat k in (zp z 0 0, zp z 1 0, zp z 2 0)) (seq 0 86).
Theorem C26_overflow_refuted :
  add_triangles zL 256 false 7 empty_mesh many = Diverge /\
  add_triangles zL 256 true 7 empty_mesh many = Trap.
Proof. vm_compute. auto. Qed.
Print Assumptions C26_overflow_refuted.

(** ** C27: validity.  Over the reals, with a comparison of points that decides
    equality on the given points: a mesh whose directed edges are pairwise
    distinct passes its own check. *)
Theorem C27_built_mesh_valid :
  forall (M : R) (L : Linal (RS M)) (W : nat) (dbg : bool) (a : addr) (SZ : nat)
         (G : vec R 3 -> Prop) (ts : list (triangle (RS M))),
    veq_on L (G : vec (RS M) 3 -> Prop) -> (forall p, In p (points_of ts) -> G p) ->
    3 * length ts < W -> NoDup (edges_of ts) ->
    exists m, built L W dbg a SZ ts = Ok m /\ mesh_is_valid W dbg (only a m) m = Ok true.
Proof.
  intros M L W dbg a SZ G ts HG HT HW Hnd.
  destruct (built_valid L W dbg a SZ G HG (fun t k q Ho _ Hin => nearest_stored_R M SZ t k q Ho Hin) ts HT HW)
    as (m & E & [H _] & _).
  exists m. split; [exact E|]. apply H, NoDup_twice, Hnd.
Qed.
Print Assumptions C27_built_mesh_valid.

(** Full characterisation: the check passes exactly if no directed edge occurs
    three times; otherwise it reports failure (and traps in a debug build). *)
Theorem C27_validity_characterised :
  forall (M : R) (L : Linal (RS M)) (W : nat) (dbg : bool) (a : addr) (SZ : nat)
         (G : vec R 3 -> Prop) (ts : list (triangle (RS M))),
    veq_on L (G : vec (RS M) 3 -> Prop) -> (forall p, In p (points_of ts) -> G p) ->
    3 * length ts < W ->
    exists m, built L W dbg a SZ ts = Ok m /\
      (at_most_twice (edges_of ts) <-> mesh_is_valid W dbg (only a m) m = Ok true) /\
      (~ at_most_twice (edges_of ts) <-> mesh_is_valid W dbg (only a m) m = if dbg then Trap else Ok false).
Proof.
  intros M L W dbg a SZ G ts HG HT HW.
  exact (built_valid L W dbg a SZ G HG (fun t k q Ho _ Hin => nearest_stored_R M SZ t k q Ho Hin) ts HT HW).
Qed.
Print Assumptions C27_validity_characterised.

Ltac pneq := let H := fresh in intros H; repeat (apply (f_equal2 pair) in H || injection H as H); try lra.

Lemma rtetra_closed : closed_oriented (edges_of rtetra).
Proof.
  assert (N : forall x y z x' y' z' : R, (x <> x' \/ y <> y' \/ z <> z')%R -> rp x y z <> rp x' y' z').
  { intros x y z x' y' z' H E. injection E as -> -> ->. lra. }
  assert (Hox : rp 0 0 0 <> rp 1 0 0) by (apply N; lra).
  assert (Hoy : rp 0 0 0 <> rp 0 1 0) by (apply N; lra).
  assert (Hoz : rp 0 0 0 <> rp 0 0 1) by (apply N; lra).
  assert (Hxy : rp 1 0 0 <> rp 0 1 0) by (apply N; lra).
  assert (Hxz : rp 1 0 0 <> rp 0 0 1) by (apply N; lra).
  assert (Hyz : rp 0 1 0 <> rp 0 0 1) by (apply N; lra).
  unfold rtetra. clear N. revert Hox Hoy Hoz Hxy Hxz Hyz.
  generalize (rp 0 0 0) (rp 1 0 0) (rp 0 1 0) (rp 0 0 1). intros o x y z Hox Hoy Hoz Hxy Hxz Hyz.
  split.
  - cbn. repeat constructor; cbn; intuition congruence.
  - cbn. intros u v H. repeat (destruct H as [H|H]; [injection H as <- <-; split; [congruence|tauto]|]). destruct H.
Qed.

Example C27_example :
  veq_on rL (fun _ : vec (RS 1) 3 => True) /\ 3 * length rtetra < 256 /\ NoDup (edges_of rtetra) /\
  closed_oriented (edges_of rtetra) /\ rtetra <> [].
Proof.
  split; [intros p q _ _; apply (raw_linal_exact 1 0%R)|]. split; [cbn; lia|].
  split; [apply rtetra_closed|]. split; [apply rtetra_closed|discriminate].
Qed.

(** the other side of the characterisation: a triangle added three times *)
Example C27_example_invalid : ~ at_most_twice (edges_of (let t := (rp 0 0 0, rp 1 0 0, rp 0 1 0) in [t; t; t])).
Proof. intros H. apply (H 0 3 6 (rp 0 0 0, rp 1 0 0)); [lia|reflexivity..]. Qed.

(** ** C28: refuted.  For every closed consistently oriented surface, every
    halfedge of the built mesh is its own opposite; the halfedge running backwards
    exists, at another position, but is never the opposite. *)
Theorem C28_opposites_refuted :
  forall (M : R) (L : Linal (RS M)) (W : nat) (dbg : bool) (a : addr) (SZ : nat)
         (G : vec R 3 -> Prop) (ts : list (triangle (RS M))),
    veq_on L (G : vec (RS M) 3 -> Prop) -> (forall p, In p (points_of ts) -> G p) ->
    3 * length ts < W -> closed_oriented (edges_of ts) ->
    exists m, built L W dbg a SZ ts = Ok m /\
      forall i, i < 3 * length ts ->
        (exists j u v, opposite_of m i i /\ runs m i u v /\ runs m j v u /\ j <> i) /\
        ~ (exists j u v, opposite_of m i j /\ runs m i u v /\ runs m j v u).
Proof.
  intros M L W dbg a SZ G ts HG HT HW Hcl.
  exact (built_not_opposite L W dbg a SZ G HG (fun t k q Ho _ Hin => nearest_stored_R M SZ t k q Ho Hin) ts HT HW Hcl).
Qed.
Print Assumptions C28_opposites_refuted.

(** What the pairing computes in general: within the positions of one directed
    edge, from first [f] to last [l], the first is paired with the last and all
    others with the first. *)
Theorem C28_pairing :
  forall (M : R) (L : Linal (RS M)) (W : nat) (dbg : bool) (a : addr) (SZ : nat)
         (G : vec R 3 -> Prop) (ts : list (triangle (RS M))),
    veq_on L (G : vec (RS M) 3 -> Prop) -> (forall p, In p (points_of ts) -> G p) ->
    3 * length ts < W ->
    exists m, built L W dbg a SZ ts = Ok m /\
      forall i, i < 3 * length ts ->
        exists f l, f <= i <= l /\ same_edge ts i f /\ same_edge ts i l /\ (forall j, same_edge ts i j -> f <= j <= l) /\
          opposite_of m i (if i =? f then l else f).
Proof.
  intros M L W dbg a SZ G ts HG HT HW.
  destruct (built_ok L W dbg a SZ G HG (fun t k q Ho _ Hin => nearest_stored_R M SZ t k q Ho Hin) ts HT HW)
    as (m & E & Hw & Ho).
  exists m. split; [exact E|]. intros i Hi.
  destruct (nth_error_get (m_halfedges m) i) as (h & Hh); [rewrite (wf_halfedge_count _ _ _ _ Hw); exact Hi|].
  destruct (Ho i h Hh) as (f & l & A & B & C & D & F). exists f, l.
  repeat (split; [assumption|]). exists h. auto.
Qed.
Print Assumptions C28_pairing.

(** the same, computed: the twelve halfedges of the integer tetrahedron *)
Example C28_example :
  match built zL 256 true 7 256 ztetra with
  | Ok m => map (@he_opp) (m_halfedges m) = seq 0 12 /\ map (@he_vertex) (m_halfedges m) = [0;1;2;0;2;3;0;3;1;2;1;3]
  | _ => False
  end.
Proof. vm_compute. auto. Qed.

(** ** C29: facet traversal and triangle indices, for every scalar type *)
Theorem C29_calc_halfedges :
  forall (S : Scalar) (L : Linal S) (a : addr) (ts : list (triangle S)) (m : mesh S) (k : nat) (f : facet),
    well_formed L a ts m -> nth_error (m_facets m) k = Some f ->
    exists h0 h1 h2, calc_halfedges (only a m) f = Ok [h0; h1; h2] /\
      nth_error (m_halfedges m) (3 * k) = Some h0 /\ nth_error (m_halfedges m) (3 * k + 1) = Some h1 /\
      nth_error (m_halfedges m) (3 * k + 2) = Some h2.
Proof.
  intros S L a ts m k f Hw Hf.
  do 3 eexists. split; [exact (calc_halfedges_ok L a ts m Hw k f Hf)|].
  apply nth_error_lt in Hf. rewrite (wf_facet_count _ _ _ _ Hw) in Hf.
  repeat split; apply nth_error_nth'; rewrite (wf_halfedge_count _ _ _ _ Hw); lia.
Qed.
Print Assumptions C29_calc_halfedges.

(** If the result type can hold the vertex numbers, looking up the extracted
    indices among the mesh points gives the corners of the added triangles, in
    order (up to the comparison of points used when they were added). *)
Theorem C29_triangle_indices_round_trip :
  forall (S : Scalar) (L : Linal S) (a : addr) (ts : list (triangle S)) (m : mesh S) (U : nat),
    well_formed L a ts m -> length (m_points m) <= U ->
    exists idx ps, calc_triangle_indices U (only a m) (m_facets m) = Ok idx /\
      mapM (at_ (m_points m)) idx = Ok ps /\ Forall2 (stands_for L) ps (points_of ts).
Proof.
  intros S L a ts m U Hw HU. destruct (lookup_corners L a ts m Hw) as (ps & E & Hps).
  do 2 eexists. split; [apply (calc_triangle_indices_ok L a ts m Hw U)|]. split; [|exact Hps].
  rewrite <- E. clear E Hps ps.
  assert (K : forall l, (forall h, In h l -> In h (m_halfedges m)) ->
    mapM (at_ (m_points m)) (map (fun h => he_vertex h mod U) l) = mapM (fun h => at_ (m_points m) (he_vertex h)) l).
  { induction l as [|h l IH]; intros Hl; [reflexivity|]. cbn [map mapM].
    destruct (In_nth_error _ _ (Hl h (or_introl eq_refl))) as (i & Hi).
    destruct (he_nav L a ts m Hw i (he_lt L a ts m Hw i h Hi))
      as (h' & nx & pv & u & A1 & A2 & A3 & A4 & A5 & A6 & A7 & A8 & A9 & A10 & A11 & A12 & A13 & A14 & A15 & A16).
    assert (h' = h) by congruence. subst h'.
    rewrite Nat.mod_small by lia. rewrite IH by (intros; apply Hl; right; assumption). reflexivity. }
  apply K; auto.
Qed.
Print Assumptions C29_triangle_indices_round_trip.

(** If the comparison decides equality the round trip is exact. *)
Corollary C29_round_trip_exact :
  forall (S : Scalar) (L : Linal S) (a : addr) (ts : list (triangle S)) (m : mesh S) (U : nat),
    veq_exact L -> well_formed L a ts m -> length (m_points m) <= U ->
    exists idx, calc_triangle_indices U (only a m) (m_facets m) = Ok idx /\
      mapM (at_ (m_points m)) idx = Ok (points_of ts).
Proof.
  intros S L a ts m U HL Hw HU.
  destruct (C29_triangle_indices_round_trip S L a ts m U Hw HU) as (idx & ps & E1 & E2 & HF).
  exists idx. split; [exact E1|]. rewrite E2. f_equal. clear -HF HL.
  induction HF as [|p q l r [H|H] _ IH]; [reflexivity|congruence|].
  apply HL in H. congruence.
Qed.
Print Assumptions C29_round_trip_exact.

Example C29_example :
  match add_triangles zL 256 true 7 empty_mesh ztetra with
  | Ok m => length (m_points m) <= 4 /\ calc_triangle_indices 1024 (only 7 m) (m_facets m) = Ok [0;1;2;0;2;3;0;3;1;2;1;3]
  | _ => False
  end.
Proof. vm_compute. auto. Qed.

(** A result type that cannot hold the vertex numbers truncates them silently,
    also in a debug build: with 300 vertices and 8-bit results the corner indices
    of the last triangle are those of other points. *)
Definition hundred : list (triangle ZS) :=
  map (fun k => let z := Z.of_nat k in (zp z 0 0, zp z 1 0, zp z 2 0)) (seq 0 100).
Definition narrow_check (r : res (mesh ZS)) (ps : list (point ZS)) : bool :=
  match r with
  | Ok m => match calc_triangle_indices 256 (only 7 m) (m_facets m) with
            | Ok idx => match mapM (at_ (m_points m)) idx with
                        | Ok qs => existsb (fun '(p, q) => negb (vec_eqb p q)) (combine qs ps)
                        | _ => true end
            | _ => false end
  | _ => false
  end.
Lemma narrow_check_spec r ps : narrow_check r ps = true ->
  exists m idx, r = Ok m /\ calc_triangle_indices 256 (only 7 m) (m_facets m) = Ok idx /\
    mapM (at_ (m_points m)) idx <> Ok ps.
Proof.
  unfold narrow_check. intros H. destruct r as [m| | | |]; try discriminate. exists m.
  destruct (calc_triangle_indices 256 (only 7 m) (m_facets m)) as [idx| | | |]; try discriminate.
  exists idx. split; [reflexivity|]. split; [reflexivity|]. intros Hm. rewrite Hm in H.
  apply existsb_exists in H as ([p q] & Hin & Hne).
  assert (p = q).
  { clear -Hin. revert Hin. induction ps as [|x l IH]; cbn; [intros []|].
    intros [H|H]; [congruence|auto]. }
  subst q. pose proof (proj2 (raw_linal_Z_exact 0%Z 3 p p) eq_refl) as Hp. cbn [veq raw_linal] in Hp.
  rewrite Hp in Hne. discriminate.
Qed.
Theorem C29_narrow_result_refuted :
  exists m idx, add_triangles zL 1024 true 7 empty_mesh hundred = Ok m /\
    calc_triangle_indices 256 (only 7 m) (m_facets m) = Ok idx /\
    mapM (at_ (m_points m)) idx <> Ok (points_of hundred).
Proof. apply narrow_check_spec. vm_compute. reflexivity. Qed.
Print Assumptions C29_narrow_result_refuted.

(** ** C30: line indices.  The result is the flattened list of the undirected
    edges of the mesh, smaller vertex first, in strictly increasing
    lexicographic order, hence each exactly once. *)
Theorem C30_line_indices :
  forall (S : Scalar) (L : Linal S) (dbg : bool) (a : addr) (ts : list (triangle S)) (m : mesh S) (U : nat),
    well_formed L a ts m -> length (m_points m) <= U ->
    exists es, calc_line_indices dbg U (only a m) m = Ok (concat (map (fun e => [fst e; snd e]) es)) /\
      StronglySorted (fun x y => fst x < fst y \/ (fst x = fst y /\ snd x < snd y)) es /\
      forall x y, In (x, y) es <-> x <= y /\ exists i, runs m i x y \/ runs m i y x.
Proof.
  intros S L dbg a ts m U Hw HU. destruct (calc_line_indices_ok L a ts m Hw dbg U HU) as (es & E & Hs & Hin).
  exists es. split; [exact E|]. split; [|exact Hin].
  clear -Hs. induction Hs as [|e l _ IH H]; constructor; [exact IH|].
  eapply Forall_impl; [|exact H]. intros x Hx. apply edge_lt_iff; exact Hx.
Qed.
Print Assumptions C30_line_indices.

Example C30_example :
  match add_triangles zL 256 true 7 empty_mesh ztetra with
  | Ok m => length (m_points m) <= 256 /\ calc_line_indices true 256 (only 7 m) m = Ok [0;1;0;2;0;3;1;2;1;3;2;3]
  | _ => False
  end.
Proof. vm_compute. split; [lia|reflexivity]. Qed.

(** ** C31: incident facets and normals *)
Theorem C31_vertex_facets :
  forall (S : Scalar) (L : Linal S) (a : addr) (ts : list (triangle S)) (m : mesh S) (v : nat) (x : vertex),
    well_formed L a ts m -> nth_error (m_vertices m) v = Some x ->
    exists ks fs, calc_vertex_facets (only a m) x = Ok fs /\
      Forall2 (fun k f => nth_error (m_facets m) k = Some f) ks fs /\ StronglySorted le ks /\
      (forall k, In k ks <-> exists c h, c < 3 /\ nth_error (m_halfedges m) (3 * k + c) = Some h /\ he_vertex h = v).
Proof. intros S L a ts m v x Hw Hv. exact (calc_vertex_facets_ok L a ts m Hw v x Hv). Qed.
Print Assumptions C31_vertex_facets.

Theorem C31_facet_normal :
  forall (M : R) (L : Linal (RS M)) (a : addr) (ts : list (triangle (RS M))) (m : mesh (RS M)) (k : nat) (f : facet)
         (t : triangle (RS M)),
    veq_exact L -> well_formed L a ts m ->
    (forall t, In t ts -> rcross (rsub (corner t 1) (corner t 0)) (rsub (corner t 2) (corner t 0)) <> (@rzero 3)) ->
    nth_error (m_facets m) k = Some f -> nth_error ts k = Some t ->
    exists n : vec R 3, calc_facet_normal (only a m) f = Ok n /\
      rnorm n = 1%R /\ rdot n (rsub (corner t 1) (corner t 0)) = 0%R /\ rdot n (rsub (corner t 2) (corner t 0)) = 0%R /\
      (0 < rdot n (rcross (rsub (corner t 1) (corner t 0)) (rsub (corner t 2) (corner t 0))))%R.
Proof. intros M L a ts m k f t HL Hw Hnd Hf Ht. exact (facet_normal_R M L HL a ts m Hw Hnd k f t Hf Ht). Qed.
Print Assumptions C31_facet_normal.

(** The vertex normal is the normalised sum of the distinct unit normals of the
    incident facets, taken in any order. *)
Theorem C31_vertex_normal :
  forall (M : R) (L : Linal (RS M)) (a : addr) (ts : list (triangle (RS M))) (m : mesh (RS M)) (v : nat) (x : vertex),
    veq_exact L -> well_formed L a ts m ->
    (forall t, In t ts -> rcross (rsub (corner t 1) (corner t 0)) (rsub (corner t 2) (corner t 0)) <> (@rzero 3)) ->
    nth_error (m_vertices m) v = Some x ->
    exists n : vec R 3, vertex_normal L (only a m) x = Ok n /\
      forall ds : list (vec R 3), NoDup ds ->
        (forall d, In d ds <-> exists k t c h, nth_error ts k = Some t /\ c < 3 /\
            nth_error (m_halfedges m) (3 * k + c) = Some h /\ he_vertex h = v /\
            unit_normal d (corner t 0) (corner t 1) (corner t 2)) ->
        n = rscale (/ rnorm (rsum ds)) (rsum ds).
Proof. intros M L a ts m v x HL Hw Hnd Hv. exact (vertex_normal_R M L HL a ts m Hw Hnd v x Hv). Qed.
Print Assumptions C31_vertex_normal.

(** non-vacuity: the real tetrahedron, whose faces are not degenerate *)
Example C31_example :
  veq_exact rL /\ (exists m, add_triangles rL 256 true 7 empty_mesh rtetra = Ok m /\ well_formed rL 7 rtetra m) /\
  forall t, In t rtetra -> rcross (rsub (corner t 1) (corner t 0)) (rsub (corner t 2) (corner t 0)) <> (@rzero 3).
Proof.
  split; [apply raw_linal_exact|]. split; [apply C26_add_triangles; cbn; lia|].
  intros t H. cbn in H. repeat (destruct H as [<-|H]; [cbn; intros E; injection E; lra|]). destruct H.
Qed.

(** ** C40: refuted.  After a move, with the source still alive or destroyed,
    every navigation through the elements of the new mesh is undefined behaviour:
    their pointers still refer to the source.  Only accesses by index through
    the new mesh object itself work. *)
Theorem C40_move_refuted :
  forall (S : Scalar) (L : Linal S) (a b : addr) (ts : list (triangle S)) (mm : mem S) (m : mesh S),
    a <> b -> mm a = Some m -> well_formed L a ts m ->
    forall mm', mm' = move_mesh mm a b \/ mm' = destroy (move_mesh mm a b) a ->
    deref mm' (Some b) = Ok m /\
    (forall h, In h (m_halfedges m) ->
       getNext mm' h = UB /\ getPrevious mm' h = UB /\ getOpposite mm' h = UB /\ getVertex mm' h = UB /\ getFacet mm' h = UB) /\
    (forall v, In v (m_vertices m) -> getVector mm' v = UB /\ calcHalfedges mm' v = UB) /\
    (forall f, In f (m_facets m) -> facet_getHalfedge mm' f = UB).
Proof. intros S L a b ts mm m Hab Hm Hw. exact (move_breaks L a b Hab ts mm m Hm Hw). Qed.
Print Assumptions C40_move_refuted.

Example C40_example :
  exists m, add_triangles zL 256 true 7 empty_mesh ztetra = Ok m /\ well_formed zL 7 ztetra m /\ only 7 m 7 = Some m /\
    m_halfedges m <> [] /\ m_vertices m <> [] /\ m_facets m <> [].
Proof.
  destruct (C26_add_triangles ZS zL 256 true 7 ztetra ltac:(cbn; lia)) as (m & E & Hw).
  exists m. split; [exact E|]. split; [exact Hw|]. split; [reflexivity|].
  pose proof (wf_halfedge_count _ _ _ _ Hw) as A. pose proof (wf_facet_count _ _ _ _ Hw) as B.
  split; [intros H; rewrite H in A; discriminate|]. split; [|intros H; rewrite H in B; discriminate].
  vm_compute in E. apply Ok_inj in E. subst m. discriminate.
Qed.

(** ** C47: equality of elements.  A mesh contains its own elements; but
    Vertex::operator== only compares the halfedge lists over the length of the
    left one: it is no equivalence, and it reads out of range if the right list is
    a proper prefix of the left one. *)
Theorem C47_contains_own_elements :
  forall (S : Scalar) (L : Linal S) (a : addr) (ts : list (triangle S)) (m : mesh S),
    well_formed L a ts m ->
    (forall v, In v (m_vertices m) -> contains_vertex m v = Ok true) /\
    (forall h, In h (m_halfedges m) -> contains_halfedge m h = true) /\
    (forall f, In f (m_facets m) -> contains_facet m f = true).
Proof. intros S L a ts m. exact (contains_own L a ts m). Qed.
Print Assumptions C47_contains_own_elements.

Theorem C47_vertex_equality_characterised :
  forall u v,
    (vertex_eq u v = Ok true <-> v_ptr u = v_ptr v /\ v_index u = v_index v /\ exists s, v_hes v = v_hes u ++ s) /\
    (vertex_eq u v = UB <-> v_ptr u = v_ptr v /\ v_index u = v_index v /\ exists s x, v_hes u = v_hes v ++ x :: s).
Proof. exact vertex_eq_spec. Qed.
Print Assumptions C47_vertex_equality_characterised.

(** for every well formed mesh and every vertex of it: asking whether the mesh
    contains a copy of the vertex that was given one more halfedge is undefined
    behaviour *)
Theorem C47_contains_vertex_refuted :
  forall (S : Scalar) (L : Linal S) (a : addr) (ts : list (triangle S)) (m : mesh S) (v : nat) (x : vertex) (i : nat),
    well_formed L a ts m -> nth_error (m_vertices m) v = Some x -> 3 * length ts <= i ->
    contains_vertex m (addHalfedgeIndex i x) = UB.
Proof. intros S L a ts m v x i. exact (contains_stale L a ts m v x i). Qed.
Print Assumptions C47_contains_vertex_refuted.

(** halfedges of different meshes compare equal *)
Theorem C47_halfedge_equality_refuted :
  forall (S : Scalar) (L : Linal S) (a b : addr) (ts ts' : list (triangle S)) (m m' : mesh S) (h : halfedge),
    well_formed L a ts m -> well_formed L b ts' m' -> length ts <= length ts' ->
    In h (m_halfedges m) -> contains_halfedge m' h = true.
Proof.
  intros S L a b ts ts' m m' h Hw Hw' Hl Hin. apply In_nth_error in Hin as (i & Hi).
  pose proof (he_lt L a ts m Hw i h Hi) as Hlt.
  destruct (he_nav L a ts m Hw i Hlt) as (h1 & nx & pv & u & A1 & A2 & _).
  destruct (he_nav L b ts' m' Hw' i ltac:(lia)) as (h2 & nx' & pv' & u' & B1 & B2 & _).
  assert (h1 = h) by congruence. subst h1.
  apply existsb_exists. exists h2. split; [eapply nth_error_In; eauto|]. unfold halfedge_eq. rewrite A2, B2. apply Nat.eqb_refl.
Qed.
Print Assumptions C47_halfedge_equality_refuted.

Example C47_example :
  exists m v x, add_triangles zL 256 true 7 empty_mesh ztetra = Ok m /\ well_formed zL 7 ztetra m /\
    nth_error (m_vertices m) v = Some x.
Proof.
  destruct (C26_add_triangles ZS zL 256 true 7 ztetra ltac:(cbn; lia)) as (m & E & Hw).
  exists m, 0. vm_compute in E. apply Ok_inj in E. eexists. split; [subst m; reflexivity|]. split; [exact Hw|subst m; reflexivity].
Qed.

(** ** C48: MeshPoints::transform.  Over the reals the translated mesh is the well
    formed mesh of the translated triangles. *)
Theorem C48_translate :
  forall (M : R) (L : Linal (RS M)) (a : addr) (ts : list (triangle (RS M))) (m : mesh (RS M)) (d : vec R 3),
    veq_exact L -> well_formed L a ts m ->
    well_formed L a (map (fun t => let '(p0, p1, p2) := t in (radd p0 d, radd p1 d, radd p2 d)) ts)
                (@translate_points (RS M) m d).
Proof. intros M L a ts m d HL. exact (translate_wf M L HL a ts m d). Qed.
Print Assumptions C48_translate.

Example C48_example : veq_exact rL /\ exists m, add_triangles rL 256 true 7 empty_mesh rtetra = Ok m /\ well_formed rL 7 rtetra m.
Proof. split; [apply raw_linal_exact|apply C26_add_triangles; cbn; lia]. Qed.

(** ** C49: vectorsToComponents is the lossless flattening of a point list *)
Theorem C49_components :
  forall (S : Scalar) (l : list (point S)),
    length (vectorsToComponents l) = 3 * length l /\
    forall i c p, nth_error l i = Some p -> c < 3 ->
      nth_error (vectorsToComponents l) (3 * i + c) = Some (vnth s0 c p).
Proof. exact (fun S => @components_spec S). Qed.
Print Assumptions C49_components.

Example C49_example : vectorsToComponents [zp 1 2 3; zp 4 5 6] = [1; 2; 3; 4; 5; 6]%Z.
Proof. reflexivity. Qed.

(** ** C50: MeshPoints::contains does not terminate once there are as many points
    as index values and none matches *)
Theorem C50_contains_refuted :
  forall (S : Scalar) (L : Linal S) (W : nat) (pts : list (point S)) (p : point S),
    W <= length pts -> (forall q, In q pts -> veq L q p = false) -> points_contains L W pts p = Diverge.
Proof. exact (fun S L W => @points_contains_diverges S L W). Qed.
Print Assumptions C50_contains_refuted.

(** below that size it decides membership and returns the first matching index *)
Theorem C50_contains_partial :
  forall (S : Scalar) (L : Linal S) (W : nat) (pts : list (point S)) (p : point S),
    length pts < W ->
    (points_contains L W pts p = Ok None /\ forall q, In q pts -> veq L q p = false) \/
    (exists i q, points_contains L W pts p = Ok (Some i) /\ nth_error pts i = Some q /\ veq L q p = true).
Proof.
  intros S L W pts p HW. unfold points_contains. rewrite firstn_all2 by lia.
  destruct (find_index _ pts) as [i|] eqn:E.
  - right. apply find_index_Some in E as (q & Hq & Hv). exists i, q. auto.
  - left. destruct (Nat.ltb_spec (length pts) W); [|lia]. split; [reflexivity|].
    intros q Hq. apply In_nth_error in Hq as (i & Hi). exact (find_index_None _ _ E i q Hi).
Qed.
Print Assumptions C50_contains_partial.

Example C50_example :
  let pts := map (fun k => zp (Z.of_nat k) 0 0) (seq 0 256) in
  256 <= length pts /\ forallb (fun q => negb (veq zL q (zp (-1) 0 0))) pts = true /\
  points_contains zL 1024 pts (zp 200 0 0) = Ok (Some 200).
Proof. vm_compute. repeat split; auto. Qed.
