(** * From index buffers to meshes *)

From Coq Require Import List Arith Bool Lia Permutation Reals Lra.
From Verif Require Import Scalar Linal Result SpecReal VecR ModelKdTree SpecKdTree ProofKdTree ProofKdTreeUpdate ModelShapes ModelTransform ModelMesh SpecMesh
  ProofMesh ProofMeshOpp ProofMeshValid ProofMeshNormal ProofMeshMisc ModelTess SpecTess ProofTessComb ProofTessConn.
Import ListNotations.
Local Open Scope nat_scope.

Local Arguments Nat.ltb _ _ : simpl never.
Local Arguments Nat.leb _ _ : simpl never.
Local Arguments Nat.eqb _ _ : simpl never.
Local Arguments Nat.modulo _ _ : simpl never.
Local Arguments Nat.mul _ _ : simpl never.

Section Build.
  Context {S : Scalar} (L : Linal S) (W : nat) (meq : hmat S -> hmat S -> bool) (dbg : bool) (self : addr) (SZ : nat).

  (** the triangle a buffer entry stands for *)
  Definition pick (pts : list (point S)) (trafo : hmat S) (d : point S) (t : nat * nat * nat) : triangle S :=
    rev3 (map3 (fun i => place meq trafo (nth i pts d)) t).

  Lemma build_loop_eq pts trafo d T : forall m,
    (forall x, In x (flat3 T) -> x < length pts) ->
    build_loop L W meq dbg self pts trafo (flat3 T) m = add_triangles L W dbg self m (map (pick pts trafo d) T).
  Proof.
    induction T as [|[[i0 i1] i2] T IH]; intros m H; [reflexivity|].
    change (flat3 ((i0, i1, i2) :: T)) with (i0 :: i1 :: i2 :: flat3 T) in *.
    assert (A : forall i, In i [i0; i1; i2] -> at_ pts i = Ok (nth i pts d)).
    { intros i Hi. unfold at_. rewrite (nth_error_nth' pts d); [reflexivity|]. apply H. cbn in *. intuition auto. }
    cbn [build_loop]. rewrite !A by (cbn; auto). cbn [bind map add_triangles foldM].
    unfold pick at 1. cbn [map3 rev3]. destruct (add_triangle _ _ _ _ _ _); try reflexivity. cbn [bind].
    apply IH. intros x Hx. apply H. do 3 right. exact Hx.
  Qed.

  Lemma build_mesh_eq pts trafo d T : 0 < length pts -> (forall x, In x (flat3 T) -> x < length pts) ->
    build_mesh L W meq dbg self SZ pts (flat3 T) trafo = built L W dbg self SZ (map (pick pts trafo d) T).
  Proof.
    intros H0 H. unfold build_mesh. rewrite flat3_length.
    rewrite (geo_assert_true dbg (0 <? length pts)) by (apply Nat.ltb_lt; exact H0). cbn [bind].
    rewrite geo_assert_true.
    2:{ apply Nat.eqb_eq. rewrite Nat.mul_comm. apply Nat.mod_mul. lia. }
    cbn [bind]. rewrite (build_loop_eq pts trafo d T empty_mesh H).
    unfold built, mesh_run. rewrite foldM_app, adds_run.
    destruct (add_triangles _ _ _ _ _ _); try reflexivity. cbn [bind foldM mesh_step].
    destruct (set_opposite_halfedges _ _ _ _ _); reflexivity.
  Qed.
End Build.

(** ** The mesh of a closed surface *)
Section Triangles.
  Context (S : Scalar) {V : Type} (tris : list (V * V * V)) (pos : V -> point S).
  Definition solid_triangles : list (triangle S) := map rev3 (map (map3 pos) tris).
End Triangles.

(** for every scalar type for which a stored point is found by the kd-tree *)
Section SolidGen.
  Context {S : Scalar} (L : Linal S) (W : nat) (dbg : bool) (self : addr) (SZ : nat).
  Context (G : point S -> Prop) (HG : veq_on L G).
  Context {V : Type} (ok : V -> Prop) (tris : list (V * V * V)) (pos : V -> point S).
  Hypothesis Hcorner : forall v, In v (flat3 tris) <-> ok v.
  Hypothesis Hcl : closed_oriented (flat_map edges3 tris).
  Hypothesis Hconn : forall u v, ok u -> ok v -> chain (edge_rel tris) u v.
  Hypothesis Hstar : forall u, ok u -> one_star tris u.
  Hypothesis Hinj : forall u v, ok u -> ok v -> pos u = pos v -> u = v.
  Hypothesis HGpos : forall v, ok v -> G (pos v).
  Hypothesis HW : 3 * length tris < W.
  Hypothesis HN : forall (t : @tree S 3 (list nat)) k q, ordered 3 SZ 0 t -> (forall x, In x (tpts 3 t) -> G x) -> In q (tpts 3 t) ->
    exists b, nearest SZ (mkKd t k) q = Ok b /\ b_point b = q.
  Notation solid_triangles := (solid_triangles S tris pos).

  Lemma edge_ok u v : In (u, v) (flat_map edges3 tris) -> ok u /\ ok v.
  Proof.
    intros H. apply in_flat_map in H as ([[x y] z] & Ht & H). rewrite <- !Hcorner, !flat3_In. cbn in H.
    destruct H as [E|[E|[E|[]]]]; injection E as <- <-; split; exists x, y, z; intuition auto.
  Qed.

  Lemma solid_edges : closed_oriented (edges_of solid_triangles).
  Proof.
    change (edges_of solid_triangles) with (flat_map edges3 solid_triangles). apply closed_rev3.
    rewrite edges_map3. apply closed_map; [|exact Hcl].
    intros u v u' v' H H' E. apply Hinj; [apply (edge_ok u v H)|apply (edge_ok u' v' H')|exact E].
  Qed.

  Lemma solid_points q : In q (points_of solid_triangles) <-> exists v, ok v /\ q = pos v.
  Proof.
    unfold points_of, solid_triangles. rewrite in_flat_map. split.
    - intros (t & Ht & Hq). apply in_map_iff in Ht as (t1 & <- & Ht). apply in_map_iff in Ht as ([[x y] z] & <- & Ht).
      assert (K : ok x /\ ok y /\ ok z).
      { rewrite <- !Hcorner, !flat3_In. repeat split; exists x, y, z; auto. }
      destruct K as (K1 & K2 & K3). cbn in Hq. destruct Hq as [<-|[<-|[<-|[]]]]; eauto.
    - intros (v & Hv & ->). rewrite <- Hcorner, flat3_In in Hv. destruct Hv as (x & y & z & Ht & Hv).
      exists (rev3 (map3 pos (x, y, z))). split; [apply in_map, in_map, Ht|]. cbn. intuition (subst; auto).
  Qed.

  Lemma solid_length : length solid_triangles = length tris.
  Proof. unfold solid_triangles. rewrite !map_length. reflexivity. Qed.

  Lemma solid_G q : In q (points_of solid_triangles) -> G q.
  Proof. intros H. apply solid_points in H as (v & Hv & ->). auto. Qed.

  Lemma solid_edge_G p q : In (p, q) (edges_of solid_triangles) -> G p /\ G q.
  Proof.
    intros H. apply in_flat_map in H as ([[x y] z] & Ht & H).
    assert (K : G x /\ G y /\ G z).
    { repeat split; apply solid_G; unfold points_of; apply in_flat_map; exists (x, y, z); cbn; auto. }
    destruct K as (K1 & K2 & K3). cbn in H. destruct H as [E|[E|[E|[]]]]; injection E as <- <-; auto.
  Qed.

  Lemma solid_edge_in x y : edge_rel tris x y -> In (pos x, pos y) (edges_of solid_triangles).
  Proof.
    intros Hxy. assert (Hin : In (pos y, pos x) (edges_of solid_triangles)).
    { change (edges_of solid_triangles) with (flat_map edges3 (map rev3 (map (map3 pos) tris))).
      apply (Permutation_in _ (edges_rev3_perm (map (map3 pos) tris))). rewrite edges_map3.
      apply in_map_iff. exists (pos x, pos y). split; [reflexivity|]. apply in_map_iff. exists (x, y). auto. }
    apply (proj2 solid_edges) in Hin. apply Hin.
  Qed.
  Lemma solid_edge_inv p q : In (p, q) (edges_of solid_triangles) -> exists x y, p = pos x /\ q = pos y /\ edge_rel tris x y.
  Proof.
    intros H. change (edges_of solid_triangles) with (flat_map edges3 (map rev3 (map (map3 pos) tris))) in H.
    apply (Permutation_in _ (Permutation_sym (edges_rev3_perm (map (map3 pos) tris)))) in H. rewrite edges_map3 in H.
    apply in_map_iff in H as ([q' p'] & E & H). cbn in E. injection E as <- <-. apply in_map_iff in H as ([y x] & E & H).
    cbn in E. injection E as <- <-. exists x, y. split; [reflexivity|]. split; [reflexivity|]. apply (edge_sym tris Hcl). exact H.
  Qed.

  Theorem solid_mesh : exists m : mesh S, built L W dbg self SZ solid_triangles = Ok m /\
    well_formed L self solid_triangles m /\ mesh_is_valid W dbg (only self m) m = Ok true /\ closed_mesh m /\
    (forall q, In q (m_points m) <-> exists v, ok v /\ q = pos v) /\ NoDup (m_points m) /\
    (forall i j, i < length (m_halfedges m) -> (opposite_of m i j <-> j = i)).
  Proof.
    assert (HW' : 3 * length solid_triangles < W) by (rewrite solid_length; exact HW).
    destruct (built_valid L W dbg self SZ G HG HN solid_triangles solid_G HW') as (m & E & [Hv _] & _).
    destruct (built_self_opposite L W dbg self SZ G HG HN solid_triangles solid_G HW' (proj1 solid_edges)) as (m' & E' & Hw & Ho).
    assert (m' = m) by congruence. subst m'. exists m.
    split; [exact E|]. split; [exact Hw|]. split; [apply Hv, NoDup_twice, solid_edges|].
    assert (Hrefl : forall p, G p -> veq L (p : point S) p = true) by (intros p Hp; apply HG; auto).
    assert (Hgiven : forall p, In p (m_points m) -> exists v, ok v /\ p = pos v).
    { intros p Hp. destruct (wf_points_given _ _ _ _ Hw p Hp) as (t & c & Ht & Hc & ->). apply solid_points.
      unfold points_of. apply in_flat_map. exists t. split; [exact Ht|]. destruct t as [[x y] z].
      destruct c as [|[|[|c]]]; cbn; auto. }
    assert (HGp : forall p, In p (m_points m) -> G p).
    { intros p Hp. destruct (Hgiven p Hp) as (v & Hv' & ->). auto. }
    assert (Huniq : forall i j p, nth_error (m_points m) i = Some p -> nth_error (m_points m) j = Some p -> i = j).
    { intros i j p Hi Hj. pose proof (Hrefl p (HGp p (nth_error_In _ _ Hi))) as Hr.
      destruct (Nat.lt_total i j) as [Hl|[Hl|Hl]]; [|exact Hl|].
      - rewrite (wf_points_distinct _ _ _ _ Hw i j p p Hl Hi Hj) in Hr. discriminate.
      - rewrite (wf_points_distinct _ _ _ _ Hw j i p p Hl Hj Hi) in Hr. discriminate. }
    assert (Hrun : forall i p q, nth_error (edges_of solid_triangles) i = Some (p, q) -> exists u v, runs m i u v /\
              nth_error (m_points m) u = Some p /\ nth_error (m_points m) v = Some q).
    { intros i p q Hi.
      assert (Hi' : i < 3 * length solid_triangles) by (rewrite <- edges_length; eapply nth_error_lt; eauto).
      destruct (wf_nav L self G HG solid_triangles solid_edge_G m i Hw Hi')
        as (h' & nx & u & v & A1 & A2 & A3 & A4 & A5 & A6 & A7 & B1 & B2 & B3 & B4 & B5 & B6).
      rewrite (edge_at solid_triangles i Hi') in Hi. injection Hi as Es Ee.
      exists (he_vertex h'), (he_vertex nx). split; [exists h', nx; auto|]. rewrite <- Es, <- Ee. auto. }
    assert (Hedge : forall i u v, runs m i u v -> exists p q, nth_error (edges_of solid_triangles) i = Some (p, q) /\
              nth_error (m_points m) u = Some p /\ nth_error (m_points m) v = Some q).
    { intros i u v. apply (runs_edge L self G HG solid_triangles solid_G m i u v Hw). }
    assert (Honce : forall i j u v, runs m i u v -> runs m j u v -> i = j).
    { intros i j u v Hi Hj. destruct (Hedge i u v Hi) as (p & q & E1 & P1 & Q1).
      destruct (Hedge j u v Hj) as (p' & q' & E2 & P2 & Q2).
      assert (p' = p) by congruence. assert (q' = q) by congruence. subst p' q'.
      apply (proj1 (NoDup_nth_error _) (proj1 solid_edges)); [eapply nth_error_lt; eauto|congruence]. }
    split; [|split; [|split]].
    - constructor.
      + intros i Hi. rewrite (wf_halfedge_count _ _ _ _ Hw) in Hi.
        destruct (nth_error_get (edges_of solid_triangles) i) as ([p q] & He); [rewrite edges_length; exact Hi|].
        destruct (Hrun i p q He) as (u & v & Hr & Hu & Hv'). exists u, v. split; [exact Hr|].
        destruct (proj2 solid_edges p q (nth_error_In _ _ He)) as (Hne & Hrev). split; [congruence|].
        apply In_nth_error in Hrev as (j & Hj). destruct (Hrun j q p Hj) as (v' & u' & Hr' & Hv'' & Hu').
        rewrite (Huniq v v' q) by assumption. rewrite (Huniq u u' p) by assumption.
        exists j. split; [exact Hr'|]. intros k Hk. apply (Honce j k v' u'); assumption.
      + exact Honce.
      + assert (K : forall x y, chain (edge_rel tris) x y -> forall u v, ok x -> ok y ->
                nth_error (m_points m) u = Some (pos x) -> nth_error (m_points m) v = Some (pos y) ->
                chain (fun x y => exists i, runs m i x y) u v).
        { intros x y Hc. induction Hc as [x|x y z Hxy Hc IH]; intros u v Hx Hz Hu Hv'.
          - rewrite (Huniq u v (pos x)) by assumption. constructor.
          - pose proof (solid_edge_in x y Hxy) as Hin.
            apply In_nth_error in Hin as (i & Hi). destruct (Hrun i _ _ Hi) as (u' & w & Hr & Hu' & Hw').
            rewrite (Huniq u u' (pos x)) by assumption. apply chain_step with w; [exists i; exact Hr|].
            apply IH; auto. apply (edge_ok x y Hxy). }
        intros u v Hu Hv'. rewrite (wf_vertex_count _ _ _ _ Hw) in Hu, Hv'.
        destruct (nth_error_get _ _ Hu) as (p & Hp). destruct (nth_error_get _ _ Hv') as (q & Hq).
        destruct (Hgiven p (nth_error_In _ _ Hp)) as (x & Hx & ->). destruct (Hgiven q (nth_error_In _ _ Hq)) as (y & Hy & ->).
        apply (K x y (Hconn x y Hx Hy) u v); assumption.
      + assert (Heq : forall i j e, nth_error (edges_of solid_triangles) i = Some e -> nth_error (edges_of solid_triangles) j = Some e -> i = j).
        { intros i j e Hi Hj. apply (proj1 (NoDup_nth_error _) (proj1 solid_edges)); [eapply nth_error_lt; eauto|congruence]. }
        assert (K1 : forall x s s' j j', turns tris x s s' -> nth_error (edges_of solid_triangles) j' = Some (pos x, pos s') ->
                 nth_error (edges_of solid_triangles) j = Some (pos x, pos s) -> follows m j' j).
        { intros x s s' j j' (t0 & Ht0 & Hs & Hs') Hj' Hj.
          destruct (In_nth_error _ _ (in_map rev3 _ _ (in_map (map3 pos) _ _ Ht0))) as (f & Hf).
          change (map rev3 (map (map3 pos) tris)) with solid_triangles in Hf.
          assert (Hne : forall y z, In (y, z) (edges3 t0) -> y <> z).
          { intros y z Hyz. apply (proj2 Hcl y z). apply in_flat_map. eauto. }
          assert (Hc : exists c, c < 3 /\ @corner S (rev3 (map3 pos t0)) c = pos s' /\
                    @corner S (rev3 (map3 pos t0)) ((c + 1) mod 3) = pos x /\
                    @corner S (rev3 (map3 pos t0)) (((c + 1) mod 3 + 1) mod 3) = pos s).
          { destruct t0 as [[t0 t1] t2]. cbn in Hs, Hs', Hne.
            pose proof (Hne t0 t1 ltac:(auto)). pose proof (Hne t1 t2 ltac:(auto)). pose proof (Hne t2 t0 ltac:(auto)).
            destruct Hs as [E1|[E1|[E1|[]]]]; injection E1 as <- <-;
              destruct Hs' as [E2|[E2|[E2|[]]]]; first [injection E2 as E2 <-; congruence|injection E2 as <-].
            - exists 0. cbn. auto.
            - exists 2. cbn. auto.
            - exists 1. cbn. auto. }
          destruct Hc as (c & Hc & C1 & C2 & C3).
          pose proof (edges_nth solid_triangles f _ c Hf Hc) as Hk. rewrite C1, C2 in Hk.
          assert (Hc' : (c + 1) mod 3 < 3) by (apply Nat.mod_upper_bound; lia).
          pose proof (edges_nth solid_triangles f _ _ Hf Hc') as Hn. rewrite C2, C3 in Hn.
          rewrite (Heq j _ _ Hj Hn).
          destruct (Hrun j' _ _ Hj') as (u1 & v1 & R1 & P1 & Q1). destruct (Hrun _ _ _ Hk) as (v2 & u2 & R2 & P2 & Q2).
          rewrite (Huniq v2 v1 (pos s')) in R2 by assumption. rewrite (Huniq u2 u1 (pos x)) in R2 by assumption.
          destruct (wf_halfedge _ _ _ _ Hw f _ c Hf Hc) as (h & ? & Hh & _ & _ & _ & Hnx & _).
          exists u1, v1, (3 * f + c), h. auto. }
        assert (K2 : forall x s s', ok x -> chain (turns tris x) s s' -> edge_rel tris x s -> forall i j,
                 nth_error (edges_of solid_triangles) i = Some (pos x, pos s') ->
                 nth_error (edges_of solid_triangles) j = Some (pos x, pos s) -> chain (follows m) i j).
        { intros x s s' Hx Hc. induction Hc as [s|s s1 s' Hss Hc IH]; intros Hxs i j Hi Hj.
          - rewrite (Heq i j _ Hi Hj). constructor.
          - assert (Hx1 : edge_rel tris x s1).
            { destruct Hss as (t0 & Ht0 & _ & Hs). apply in_flat_map. eauto. }
            destruct (In_nth_error _ _ (solid_edge_in x s1 Hx1)) as (j' & Hj').
            eapply chain_trans; [apply (IH Hx1 i j' Hi Hj')|]. apply chain_one. apply (K1 x s s1 j j' Hss Hj' Hj). }
        intros i j u v w Hi Hj. destruct (Hedge i u v Hi) as (p & q & E1 & P1 & Q1).
        destruct (Hedge j u w Hj) as (p' & q' & E2 & P2 & Q2). assert (p' = p) by congruence. subst p'.
        destruct (solid_edge_inv _ _ (nth_error_In _ _ E1)) as (x & y & -> & -> & Hxy).
        destruct (solid_edge_inv _ _ (nth_error_In _ _ E2)) as (x' & y' & Ex & -> & Hxy').
        assert (x' = x).
        { symmetry. apply Hinj; [apply (edge_ok x y Hxy)|apply (edge_ok x' y' Hxy')|exact Ex]. }
        subst x'. assert (Hx : ok x) by apply (edge_ok x y Hxy).
        apply (K2 x y' y Hx (Hstar x Hx y' y Hxy' Hxy) Hxy' i j E1 E2).
    - intros q. split; [apply Hgiven|]. intros (v & Hv' & ->).
      assert (In (pos v) (points_of solid_triangles)) by (apply solid_points; eauto).
      unfold points_of in H. apply in_flat_map in H as (t & Ht & H). apply In_nth_error in Ht as (k & Hk).
      assert (Hc : exists c, c < 3 /\ corner t c = pos v).
      { destruct t as [[x y] z]. cbn in H. destruct H as [H|[H|[H|[]]]]; [exists 0|exists 1|exists 2]; auto. }
      destruct Hc as (c & Hc & Ec).
      destruct (wf_halfedge _ _ _ _ Hw k t c Hk Hc) as (h & p & _ & _ & _ & _ & _ & _ & Hp & Hst).
      assert (p = pos v); [|subst; eapply nth_error_In; eauto].
      rewrite Ec in Hst. destruct Hst as [Hst|Hst]; [exact Hst|].
      apply HG; [apply HGp; eapply nth_error_In; eauto|apply HGpos; exact Hv'|exact Hst].
    - apply NoDup_nth_error. intros i j Hi Hij. destruct (nth_error_get _ _ Hi) as (p & Hp).
      apply (Huniq i j p); [exact Hp|congruence].
    - intros i j Hi. apply Ho. rewrite <- (wf_halfedge_count _ _ _ _ Hw). exact Hi.
  Qed.
End SolidGen.

(** the corners of the facets *)
Lemma list_eq_nth {A} (l l' : list A) : (forall k, nth_error l k = nth_error l' k) -> l = l'.
Proof.
  revert l'. induction l as [|x l IH]; intros [|y l'] H; [reflexivity|discriminate (H 0)|discriminate (H 0)|].
  pose proof (H 0) as H0. cbn in H0. injection H0 as <-. f_equal. apply IH. intros k. exact (H (Datatypes.S k)).
Qed.
Lemma facet_triangles {S : Scalar} (L : Linal S) (self : addr) (G : point S -> Prop) (HG : veq_on L G) (ts : list (triangle S)) (m : mesh S) :
  (forall q, In q (points_of ts) -> G q) -> well_formed L self ts m -> map (facet_triangle m) (m_facets m) = map Some ts.
Proof.
  intros HGt Hw.
  assert (HGc : forall t c, In t ts -> G (corner t c)).
  { intros t c Ht. apply HGt. unfold points_of. apply in_flat_map. exists t. split; [exact Ht|]. destruct t as [[x y] z].
    destruct c as [|[|c]]; cbn; auto. }
  assert (Hst : forall h p t c, nth_error (m_points m) (he_vertex h) = Some p -> In t ts -> stands_for L p (corner t c) ->
            nth_error (m_points m) (he_vertex h) = Some (corner t c)).
  { intros h p t c Hp Ht [E|E]; [congruence|]. rewrite Hp. f_equal. apply HG; [|apply HGc, Ht|exact E].
    destruct (wf_points_given _ _ _ _ Hw p (nth_error_In _ _ Hp)) as (t' & c' & Ht' & _ & ->). apply HGc, Ht'. }
  apply list_eq_nth. intros k. rewrite !nth_error_map.
  destruct (nth_error (m_facets m) k) as [f|] eqn:Ef.
  - assert (Hk : k < length ts) by (rewrite <- (wf_facet_count _ _ _ _ Hw); eapply nth_error_lt; eauto).
    destruct (nth_error_get _ _ Hk) as (t & Ht). rewrite Ht. cbn [option_map]. f_equal.
    pose proof (nth_error_In _ _ Ht) as Hin. destruct (wf_facet _ _ _ _ Hw k f Ef) as (E0 & _).
    destruct (wf_halfedge _ _ _ _ Hw k t 0 Ht ltac:(lia)) as (h0 & p0 & A0 & _ & _ & _ & N0 & _ & P0 & S0).
    destruct (wf_halfedge _ _ _ _ Hw k t 1 Ht ltac:(lia)) as (h1 & p1 & A1 & _ & _ & _ & N1 & _ & P1 & S1).
    destruct (wf_halfedge _ _ _ _ Hw k t 2 Ht ltac:(lia)) as (h2 & p2 & A2 & _ & _ & _ & N2 & _ & P2 & S2).
    change ((0 + 1) mod 3) with 1 in N0. change ((1 + 1) mod 3) with 2 in N1. rewrite Nat.add_0_r in A0.
    unfold facet_triangle. rewrite E0, A0, N0, A1, N1, A2.
    rewrite (Hst _ _ _ _ P0 Hin S0), (Hst _ _ _ _ P1 Hin S1), (Hst _ _ _ _ P2 Hin S2). destruct t as [[x y] z]. reflexivity.
  - apply nth_error_None in Ef. rewrite (wf_facet_count _ _ _ _ Hw) in Ef. apply nth_error_None in Ef. rewrite Ef. reflexivity.
Qed.

(** over the reals: facet normals *)
Section Solid.
  Context (M : R) (L : Linal (RS M)) (W : nat) (dbg : bool) (self : addr) (SZ : nat).
  Context (G : vec R 3 -> Prop) (HG : veq_on L (G : vec (RS M) 3 -> Prop)).
  Context {V : Type} (ok : V -> Prop) (tris : list (V * V * V)) (pos : V -> vec R 3).
  Hypothesis Hcorner : forall v, In v (flat3 tris) <-> ok v.
  Hypothesis HGpos : forall v, ok v -> G (pos v).
  Notation solid_triangles := (solid_triangles (RS M) tris pos).

  (** the normals computed for the facets *)
  Lemma solid_normal (m : mesh (RS M)) (c : vec R 3) k f : well_formed L self solid_triangles m ->
    (forall x y z, In (x, y, z) tris -> rcross (rsub (pos y) (pos z)) (rsub (pos x) (pos z)) <> rzero) ->
    nth_error (m_facets m) k = Some f ->
    exists x y z n l, In (x, y, z) tris /\ calc_facet_normal (only self m) f = Ok n /\ rnorm n = 1%R /\ (0 < l)%R /\
      n = rscale l (rcross (rsub (pos y) (pos z)) (rsub (pos x) (pos z))) /\
      forall i h q, nth_error (m_halfedges m) i = Some h -> he_facet h = k ->
        nth_error (m_points m) (he_vertex h) = Some q -> rdot n (rsub q c) = rdot n (rsub (pos z) c).
  Proof.
    intros Hw Hnz Hf.
    assert (Hk : k < length solid_triangles) by (rewrite <- (wf_facet_count _ _ _ _ Hw); eapply nth_error_lt; eauto).
    destruct (nth_error_get _ _ Hk) as (t & Ht).
    assert (Hex : exists x y z, In (x, y, z) tris /\ t = (pos z, pos y, pos x)).
    { pose proof (nth_error_In _ _ Ht) as Hin. unfold solid_triangles in Hin. apply in_map_iff in Hin as (t1 & <- & Hin).
      apply in_map_iff in Hin as ([[x y] z] & <- & Hin). exists x, y, z. auto. }
    destruct Hex as (x & y & z & Hin & ->). specialize (Hnz x y z Hin).
    assert (HGt : G (pos z) /\ G (pos y) /\ G (pos x)).
    { repeat split; apply HGpos; apply Hcorner; apply flat3_In; exists x, y, z; auto. }
    assert (HGp : forall p, In p (m_points m) -> G p).
    { intros p Hp. destruct (wf_points_given _ _ _ _ Hw p Hp) as (t' & c' & Ht' & _ & ->).
      assert (K : In (corner t' c') (points_of solid_triangles)).
      { unfold points_of. apply in_flat_map. exists t'. split; [exact Ht'|]. destruct t' as [[? ?] ?].
        destruct c' as [|[|[|c']]]; cbn; auto. }
      apply (solid_G (S := RS M) G ok tris pos Hcorner HGpos), K. }
    assert (Hst : forall p q, In p (m_points m) -> G q -> stands_for L p q -> p = q).
    { intros p q Hp Hq [E|E]; [exact E|]. apply HG; auto. }
    destruct (facet_normal_corners L self solid_triangles m Hw k f _ Hf Ht) as (p0 & p1 & p2 & I0 & I1 & I2 & S0 & S1 & S2 & En).
    destruct HGt as (G0 & G1 & G2).
    apply Hst in S0, S1, S2; [|assumption|assumption|assumption|assumption|assumption|assumption]. cbn in S0, S1, S2. subst p0 p1 p2.
    pose proof (unit_normal_ok M _ _ _ Hnz) as Hun.
    rewrite cross_R, !vsub_R, rcross_shift, normalize_R in *.
    exists x, y, z. eexists. exists (/ rnorm (rcross (rsub (pos y) (pos z)) (rsub (pos x) (pos z))))%R. split; [exact Hin|]. split; [exact En|].
    set (n := rscale _ _) in *. destruct Hun as (U1 & U2 & U3 & U4). split; [exact U1|].
    split; [apply normalize_nonzero, Hnz|]. split; [reflexivity|].
    assert (Kd : forall q, rdot n (rsub q c) = (rdot n (rsub (pos z) c) + rdot n (rsub q (pos z)))%R).
    { intros q. rewrite <- rdot_add_r. f_equal. clear. generalize (pos z). intros z0. v3. repeat (apply f_equal2; [ring|]). reflexivity. }
    assert (Kc : forall j, corner ((pos z, pos y, pos x) : triangle (RS M)) j = pos z \/ corner ((pos z, pos y, pos x) : triangle (RS M)) j = pos y \/
               corner ((pos z, pos y, pos x) : triangle (RS M)) j = pos x).
    { intros [|[|j]]; cbn; auto. }
    intros i h q Hh Hfk Hq.
    assert (Hi : i < 3 * length solid_triangles) by (rewrite <- (wf_halfedge_count _ _ _ _ Hw); eapply nth_error_lt; eauto).
    assert (Hc3 : i mod 3 < 3) by (apply Nat.mod_upper_bound; lia).
    destruct (nth_error_get solid_triangles (i / 3)) as (t' & Ht'); [apply Nat.div_lt_upper_bound; lia|].
    destruct (wf_halfedge _ _ _ _ Hw _ _ _ Ht' Hc3) as (h' & p & Hh' & _ & Hf' & _ & _ & _ & Hp & Hs).
    rewrite <- Nat.div_mod in Hh' by lia. assert (h' = h) by congruence. subst h'.
    assert (i / 3 = k) by congruence. rewrite H in Ht'. assert (t' = (pos z, pos y, pos x)) by congruence. subst t'.
    assert (p = q) by congruence. subst p.
    assert (HGc : G (corner ((pos z, pos y, pos x) : triangle (RS M)) (i mod 3))).
    { destruct (Kc (i mod 3)) as [-> |[-> | ->]]; assumption. }
    apply Hst in Hs; [|eapply nth_error_In; exact Hq|exact HGc]. rewrite Kd, Hs.
    destruct (Kc (i mod 3)) as [-> |[-> | ->]].
    - pose proof (Kd (pos z)). lra.
    - rewrite U2. lra.
    - rewrite U3. lra.
  Qed.

  Lemma solid_outward (m : mesh (RS M)) (c : vec R 3) : well_formed L self solid_triangles m ->
    (forall x y z, In (x, y, z) tris -> faces_away c (pos z) (pos y) (pos x)) -> outward self m c.
  Proof.
    intros Hw Haway k f Hf.
    destruct (solid_normal m c k f Hw) as (x & y & z & n & l & Hin & En & Hn & Hl & E & Hq); [|exact Hf|].
    { intros x y z Hin E. specialize (Haway x y z Hin). unfold faces_away in Haway. rewrite E, rdot_zero_l in Haway. lra. }
    exists n. split; [exact En|]. split; [exact Hn|]. intros i h q H1 H2 H3. rewrite (Hq i h q H1 H2 H3), E, rdot_scale_l.
    apply Rmult_lt_0_compat; [exact Hl|]. apply (Haway x y z Hin).
  Qed.
  Lemma solid_inward (m : mesh (RS M)) (c : vec R 3) : well_formed L self solid_triangles m ->
    (forall x y z, In (x, y, z) tris -> faces_away c (pos x) (pos y) (pos z)) -> inward self m c.
  Proof.
    intros Hw Haway k f Hf.
    assert (K : forall x y z, In (x, y, z) tris -> (rdot (rcross (rsub (pos y) (pos z)) (rsub (pos x) (pos z))) (rsub (pos z) c) < 0)%R).
    { intros x y z Hin. specialize (Haway x y z Hin). unfold faces_away in Haway. apply Ropp_lt_cancel. rewrite Ropp_0.
      eapply Rlt_le_trans; [exact Haway|]. right. generalize (pos x), (pos y), (pos z). clear. intros. v3. ring. }
    destruct (solid_normal m c k f Hw) as (x & y & z & n & l & Hin & En & Hn & Hl & E & Hq); [|exact Hf|].
    { intros x y z Hin E. specialize (K x y z Hin). rewrite E, rdot_zero_l in K. lra. }
    exists n. split; [exact En|]. split; [exact Hn|]. intros i h q H1 H2 H3. rewrite (Hq i h q H1 H2 H3), E, rdot_scale_l.
    specialize (K x y z Hin). nra.
  Qed.
End Solid.

(** number of points of such a mesh *)
Lemma solid_count {V} (ok : V -> Prop) {A} (pos : V -> A) (vs : list V) (l : list A) :
  NoDup vs -> (forall v, In v vs <-> ok v) -> (forall u v, ok u -> ok v -> pos u = pos v -> u = v) ->
  NoDup l -> (forall q, In q l <-> exists v, ok v /\ q = pos v) -> length l = length vs.
Proof.
  intros Hn Hvs Hinj Hl Hin. rewrite <- (map_length pos vs). apply Permutation_length.
  apply NoDup_Permutation; [exact Hl| |].
  - apply NoDup_map_on; [exact Hn|]. intros x y Hx Hy. apply Hinj; apply Hvs; assumption.
  - intros q. rewrite Hin, in_map_iff. split.
    + intros (v & Hv & ->). exists v. rewrite Hvs. auto.
    + intros (v & <- & Hv). exists v. rewrite Hvs in Hv. auto.
Qed.

(** ** Enumerated vertices *)
Section Enum.
  Context {V : Type} (ok : V -> Prop) (enc : V -> nat) (vs : list V) (N : nat).
  Hypothesis Henum : map enc vs = seq 0 N.
  Hypothesis Hvs : forall v, In v vs -> ok v.
  Hypothesis Hinj : forall u v, ok u -> ok v -> enc u = enc v -> u = v.
  Hypothesis Hlt : forall v, ok v -> enc v < N.

  Lemma enum_nth v : ok v -> nth_error vs (enc v) = Some v.
  Proof.
    intros H. assert (E : nth_error (map enc vs) (enc v) = Some (enc v)).
    { rewrite Henum. rewrite (nth_error_nth' _ 0) by (rewrite seq_length; apply Hlt, H).
      rewrite seq_nth by (apply Hlt, H). reflexivity. }
    rewrite nth_error_map in E. destruct (nth_error vs (enc v)) as [u|] eqn:Eu; [|discriminate].
    cbn in E. apply Some_inj in E. f_equal. apply Hinj; [eapply Hvs, nth_error_In, Eu|exact H|exact E].
  Qed.
  Lemma enum_In v : In v vs <-> ok v.
  Proof. split; [apply Hvs|]. intros H. eapply nth_error_In, enum_nth, H. Qed.
  Lemma enum_NoDup : NoDup vs.
  Proof. apply (NoDup_map_inv enc). rewrite Henum. apply seq_NoDup. Qed.
  Lemma enum_length : length vs = N.
  Proof. rewrite <- (map_length enc), Henum. apply seq_length. Qed.

  Lemma build_mesh_solid (S : Scalar) (L : Linal S) W meq dbg self SZ (pos : V -> point S) (trafo : hmat S) (tris : list (V * V * V)) :
    0 < N -> (forall v, In v (flat3 tris) -> ok v) ->
    build_mesh L W meq dbg self SZ (map pos vs) (flat3 (map (map3 enc) tris)) trafo =
    built L W dbg self SZ (solid_triangles S tris (fun v => place meq trafo (pos v))).
  Proof.
    intros HN Hok. rewrite (build_mesh_eq L W meq dbg self SZ _ trafo (mk3 s0 s0 s0)).
    - f_equal. unfold solid_triangles. rewrite !map_map. apply map_ext_in. intros [[x y] z] Ht.
      assert (K : ok x /\ ok y /\ ok z) by (repeat split; apply Hok, flat3_In; exists x, y, z; auto).
      unfold pick. cbn [map3 rev3].
      assert (E : forall v, ok v -> nth (enc v) (map pos vs) (mk3 s0 s0 s0) = pos v).
      { intros v Hv. erewrite nth_error_nth; [reflexivity|]. rewrite nth_error_map, enum_nth by exact Hv. reflexivity. }
      rewrite !E by apply K. reflexivity.
    - rewrite map_length, enum_length. exact HN.
    - intros k Hk. rewrite flat3_In in Hk. destruct Hk as (i & j & l & Hin & Hk).
      apply in_map_iff in Hin as ([[x y] z] & E & Ht). injection E as <- <- <-.
      assert (K : ok x /\ ok y /\ ok z) by (repeat split; apply Hok, flat3_In; exists x, y, z; auto).
      rewrite map_length, enum_length. destruct Hk as [->|[->| ->]]; apply Hlt, K.
  Qed.
End Enum.
