(** * Lemmas on welding: equal corners become one vertex *)

From Coq Require Import List Arith Bool Lia.
From Verif Require Import Scalar Linal Result ModelKdTree SpecKdTree ModelMesh SpecMesh SpecWeld ProofMesh ProofTessComb ProofTessMesh.
Import ListNotations.
Local Open Scope nat_scope.

Lemma find_ext {A} (f g : A -> bool) l : (forall x, In x l -> f x = g x) -> find f l = find g l.
Proof. induction l as [|x l IH]; intros H; cbn; [reflexivity|]. rewrite (H x (or_introl eq_refl)), IH; [reflexivity|]. intros y Hy. apply H. right. exact Hy. Qed.
Lemma find_index_ext {A} (f g : A -> bool) l : (forall x, In x l -> f x = g x) -> find_index f l = find_index g l.
Proof. induction l as [|x l IH]; intros H; cbn; [reflexivity|]. rewrite (H x (or_introl eq_refl)), IH; [reflexivity|]. intros y Hy. apply H. right. exact Hy. Qed.
Lemma firstn_In {A} n (l : list A) x : In x (firstn n l) -> In x l.
Proof. revert l. induction n as [|n IH]; intros [|y l] H; cbn in *; try contradiction. destruct H as [->|H]; auto. Qed.

Section Weld.
  Context {S : Scalar} (L : Linal S) (W : nat) (dbg : bool) (a : addr).
  Context (l : list (point S)) (Hl : groups L l).
  Notation fe := (first_equal L l).

  Lemma fe_found q : In q l -> In (fe q) l /\ veq L (fe q) q = true.
  Proof.
    intros Hq. unfold first_equal. destruct (find _ l) as [x|] eqn:E.
    - apply find_some in E. exact E.
    - pose proof (find_none _ _ E q Hq) as K. cbn beta in K. destruct Hl as (Hr & _ & _). rewrite (Hr q Hq) in K. discriminate.
  Qed.
  Lemma veq_class x y z : In x l -> In y l -> In z l -> veq L x y = true -> veq L z x = veq L z y.
  Proof.
    intros Hx Hy Hz E. destruct Hl as (_ & Hs & Ht). destruct (veq L z x) eqn:A, (veq L z y) eqn:B; try reflexivity.
    - rewrite (Ht z x y Hz Hx Hy A E) in B. discriminate.
    - rewrite (Ht z y x Hz Hy Hx B (Hs x y Hx Hy E)) in A. discriminate.
  Qed.
  Lemma fe_class x y : In x l -> In y l -> veq L x y = true -> fe x = fe y.
  Proof.
    intros Hx Hy E. unfold first_equal. rewrite (find_ext (fun z : point S => veq L z x) (fun z : point S => veq L z y) l).
    - destruct (find _ l) eqn:F; [reflexivity|]. pose proof (find_none _ _ F x Hx) as K. cbn beta in K. congruence.
    - intros z Hz. apply veq_class; assumption.
  Qed.
  Lemma fe_exact x y : In x l -> In y l -> (veq L (fe x) (fe y) = true <-> fe x = fe y).
  Proof.
    intros Hx Hy. destruct (fe_found x Hx) as (A & B), (fe_found y Hy) as (C & D). split.
    - intros E. apply fe_class; [assumption..|]. destruct Hl as (_ & Hs & Ht).
      apply (Ht x (fe x) y); try assumption; [apply Hs; assumption|]. apply (Ht (fe x) (fe y) y); assumption.
    - intros ->. exact (proj1 Hl _ C).
  Qed.
  Lemma fe_idem x : In x l -> fe (fe x) = fe x.
  Proof. intros Hx. destruct (fe_found x Hx) as (A & B). apply fe_class; assumption. Qed.

  (** [d] are the corners looked up so far *)
  Definition stored (d : list (point S)) (m : mesh S) : Prop :=
    (forall p, In p (m_points m) -> exists x, In x d /\ p = fe x) /\ (forall x, In x d -> In (fe x) (m_points m)).

  Lemma fe_first d q r : l = d ++ q :: r -> (forall x, In x d -> veq L x q = false) -> fe q = q.
  Proof.
    intros E H. assert (Hq : In q l) by (rewrite E; apply in_or_app; right; left; reflexivity).
    assert (K : veq L q q = true) by exact (proj1 Hl q Hq).
    assert (F : forall d' : list (point S), (forall x : point S, In x d' -> veq L x q = false) -> find (fun x : point S => veq L x q) (d' ++ q :: r) = Some q).
    { induction d' as [|x d' IH]; intros H'; cbn; [rewrite K; reflexivity|]. rewrite (H' x (or_introl eq_refl)). apply IH. intros y Hy. apply H'. right. exact Hy. }
    specialize (F d H). rewrite <- E in F. unfold first_equal. rewrite F. reflexivity.
  Qed.

  Lemma lookup_same d q r m : l = d ++ q :: r -> stored d m ->
    create_or_find_vertex1 L W dbg a m q = create_or_find_vertex1 L W dbg a m (fe q) /\
    forall m' i, create_or_find_vertex1 L W dbg a m q = Ok (m', i) -> stored (d ++ [q]) m'.
  Proof.
    intros E (H1 & H2).
    assert (Hq : In q l) by (rewrite E; apply in_or_app; right; left; reflexivity).
    assert (Hd : forall x, In x d -> In x l) by (intros x Hx; rewrite E; apply in_or_app; left; exact Hx).
    destruct (fe_found q Hq) as (A & B).
    assert (Hp : forall p, In p (m_points m) -> In p l).
    { intros p Hp. destruct (H1 p Hp) as (x & Hx & ->). apply fe_found, Hd, Hx. }
    assert (Ef : find_index (fun x : point S => veq L x q) (firstn W (m_points m)) = find_index (fun x : point S => veq L x (fe q)) (firstn W (m_points m))).
    { apply find_index_ext. intros x Hx. symmetry. apply veq_class; try assumption. apply Hp. eapply firstn_In; eauto. }
    unfold create_or_find_vertex1, points_contains. rewrite <- Ef.
    destruct (find_index _ (firstn W (m_points m))) as [i|] eqn:F.
    - split; [reflexivity|]. cbn [bind]. intros m' j Hm. destruct (geo_assert dbg (idx_valid W i)); try discriminate. cbn [bind] in Hm. injection Hm as <- <-.
      apply find_index_Some in F as (p & Hn & Hv). apply nth_error_In, firstn_In in Hn.
      split.
      + intros p' Hp'. destruct (H1 p' Hp') as (x & Hx & ->). exists x. split; [apply in_or_app; left; exact Hx|reflexivity].
      + intros x Hx. apply in_app_or in Hx as [Hx|[<-|[]]]; [auto|]. destruct (H1 p Hn) as (x & Hx & ->).
        rewrite <- (fe_class (fe x) q (Hp _ Hn) Hq Hv), fe_idem by auto. exact Hn.
    - destruct (length (m_points m) <? W) eqn:Hlen; [|split; [reflexivity|discriminate]].
      apply Nat.ltb_lt in Hlen. rewrite firstn_all2 in F by lia. pose proof (find_index_None _ _ F) as Hn.
      assert (Eq : fe q = q).
      { apply (fe_first d q r E). intros x Hx. destruct (veq L x q) eqn:Ex; [|reflexivity].
        destruct (In_nth_error _ _ (H2 x Hx)) as (n & En). pose proof (Hn n (fe x) En) as K. cbn beta in K. rewrite (fe_class x q (Hd x Hx) Hq Ex) in K. rewrite B in K. discriminate. }
      rewrite Eq. split; [reflexivity|]. cbn [bind]. intros m' j Hm. unfold points_add in Hm. destruct (geo_assert dbg _); try discriminate. cbn [bind] in Hm. injection Hm as <- <-.
      cbn [m_points]. split.
      + intros p Hp'. apply in_app_or in Hp' as [Hp'|[<-|[]]].
        * destruct (H1 p Hp') as (x & Hx & ->). exists x. split; [apply in_or_app; left; exact Hx|reflexivity].
        * exists q. split; [apply in_or_app; right; left; reflexivity|symmetry; exact Eq].
      + intros x Hx. apply in_app_or in Hx as [Hx|[<-|[]]]; apply in_or_app; [left; auto|right; left; symmetry; exact Eq].
  Qed.

  (** the rest of the adder does not touch the points *)
  Lemma add_corner_points f (m : mesh S) k v s : add_corner W dbg a f (m, k) v = Ok s -> m_points (fst s) = m_points m.
  Proof.
    unfold add_corner. destruct (geo_assert dbg _) as [[]| | | |]; try discriminate. cbn [bind].
    destruct f; (destruct (geo_assert dbg _) as [[]| | | |] || idtac); try discriminate; cbn [bind];
    repeat (match goal with |- context [bind ?x _] => destruct x as [?| | | |]; try discriminate; cbn [bind] end); intros E; injection E as <-; reflexivity.
  Qed.
  Lemma link_points k (m m' : mesh S) : link W k m = Ok m' -> m_points m' = m_points m.
  Proof. unfold link. destruct (foldM _ _ _); try discriminate. cbn [bind]. intros E. injection E as <-. reflexivity. Qed.

  Definition weld (t : triangle S) : triangle S := let '(p0, p1, p2) := t in (fe p0, fe p1, fe p2).
  Lemma add_triangle_same d t r m : l = d ++ (let '(p0, p1, p2) := t in [p0; p1; p2]) ++ r -> stored d m ->
    add_triangle L W dbg a m t = add_triangle L W dbg a m (weld t) /\
    forall m', add_triangle L W dbg a m t = Ok m' -> stored (d ++ (let '(p0, p1, p2) := t in [p0; p1; p2])) m'.
  Proof.
    destruct t as [[p0 p1] p2]. intros E H0. cbn [weld].
    destruct (lookup_same d p0 (p1 :: p2 :: r) m E H0) as (E0 & N0).
    unfold add_triangle, create_or_find_vertex. rewrite <- E0.
    destruct (create_or_find_vertex1 L W dbg a m p0) as [[m0 i0]| | | |]; try (split; [reflexivity|discriminate]). cbn [bind].
    specialize (N0 m0 i0 eq_refl).
    destruct (lookup_same (d ++ [p0]) p1 (p2 :: r) m0 ltac:(rewrite <- app_assoc; exact E) N0) as (E1 & N1). rewrite <- E1.
    destruct (create_or_find_vertex1 L W dbg a m0 p1) as [[m1 i1]| | | |]; try (split; [reflexivity|discriminate]). cbn [bind].
    specialize (N1 m1 i1 eq_refl).
    destruct (lookup_same ((d ++ [p0]) ++ [p1]) p2 r m1 ltac:(rewrite <- !app_assoc; exact E) N1) as (E2 & N2). rewrite <- E2.
    destruct (create_or_find_vertex1 L W dbg a m1 p2) as [[m2 i2]| | | |]; try (split; [reflexivity|discriminate]). cbn [bind].
    specialize (N2 m2 i2 eq_refl). split; [reflexivity|]. intros m' Hm.
    assert (Em : m_points m' = m_points m2).
    { destruct (geo_assert dbg _) as [[]| | | |]; try discriminate. cbn [bind] in Hm.
      destruct (add_corner W dbg a true (m2, inv_idx W) i0) as [[m3 k3]| | | |] eqn:C1; try discriminate. cbn [bind] in Hm.
      destruct (add_corner W dbg a false (m3, k3) i1) as [[m4 k4]| | | |] eqn:C2; try discriminate. cbn [bind] in Hm.
      destruct (add_corner W dbg a false (m4, k4) i2) as [[m5 k5]| | | |] eqn:C3; try discriminate. cbn [bind] in Hm.
      destruct (geo_assert dbg (idx_valid W k5)) as [[]| | | |]; try discriminate. cbn [bind] in Hm.
      destruct (geo_assert dbg (3 <=? length (m_halfedges m5))) as [[]| | | |]; try discriminate. cbn [bind] in Hm.
      apply link_points in Hm. apply add_corner_points in C1, C2, C3. cbn [fst] in C1, C2, C3. congruence. }
    rewrite <- !app_assoc in N2. unfold stored in *. rewrite Em. exact N2.
  Qed.
  Lemma add_triangles_same d ts m : l = d ++ points_of ts -> stored d m ->
    add_triangles L W dbg a m ts = add_triangles L W dbg a m (map weld ts).
  Proof.
    revert d m. induction ts as [|t ts IH]; intros d m E H; [reflexivity|].
    destruct (add_triangle_same d t (points_of ts) m E H) as (E1 & N1). unfold add_triangles. cbn [map foldM]. rewrite <- E1.
    destruct (add_triangle L W dbg a m t) as [m1| | | |]; try reflexivity. cbn [bind].
    apply (IH (d ++ (let '(p0, p1, p2) := t in [p0; p1; p2]))); [rewrite <- app_assoc; exact E|]. apply N1. reflexivity.
  Qed.
End Weld.

Lemma welded_eq {S} (L : Linal S) ts : welded L ts = map (weld L (points_of ts)) ts.
Proof. reflexivity. Qed.
Lemma add_triangles_welded {S} (L : Linal S) W dbg a ts : groups L (points_of ts) ->
  add_triangles L W dbg a empty_mesh ts = add_triangles L W dbg a empty_mesh (welded L ts).
Proof.
  intros H. apply (add_triangles_same L W dbg a (points_of ts) H []); [reflexivity|]. split; [intros p []|intros x []].
Qed.
Lemma welded_points {S} (L : Linal S) ts : points_of (welded L ts) = map (first_equal L (points_of ts)) (points_of ts).
Proof.
  rewrite welded_eq. assert (K : forall l us, points_of (map (weld L l) us) = map (first_equal L l) (points_of us)); [|apply K].
  intros l us. induction us as [|[[x y] z] us IH]; [reflexivity|]. cbn. f_equal. f_equal. f_equal. exact IH.
Qed.
Lemma welded_exact {S} (L : Linal S) ts : groups L (points_of ts) -> veq_on L (fun x => In x (points_of (welded L ts))).
Proof.
  intros H x y Hx Hy. rewrite welded_points in Hx, Hy. apply in_map_iff in Hx as (x' & <- & Hx), Hy as (y' & <- & Hy).
  apply fe_exact; assumption.
Qed.

Lemma fe_some {S} (L : Linal S) (l : list (point S)) (q z : point S) : find (fun x : point S => veq L x q) l = Some z -> first_equal L l q = z.
Proof. unfold first_equal. intros H. destruct (find _ l); [now injection H|discriminate]. Qed.

(** Corners with labels: [lab x v] says that [x] is one of the points for the label [v]. *)
Lemma welded_labelled {S} (L : Linal S) {V} (lab : point S -> V -> Prop) (g : V -> point S) (tris : list (V * V * V)) (ts : list (triangle S)) :
  (forall x y u v, lab x u -> lab y v -> (veq L x y = true <-> u = v)) ->
  Forall2 (fun t T => let '(x0, x1, x2) := t in let '(v0, v1, v2) := rev3 T in lab x0 v0 /\ lab x1 v1 /\ lab x2 v2) ts tris ->
  (forall v, In v (flat3 tris) -> lab (g v) v) ->
  let pos v := first_equal L (points_of ts) (g v) in
  groups L (points_of ts) /\ welded L ts = solid_triangles S tris pos /\ forall v, In v (flat3 tris) -> lab (pos v) v.
Proof.
  intros Hlab H Hg pos.
  assert (Hall : forall x, In x (points_of ts) -> exists v, lab x v /\ In v (flat3 tris)).
  { clear Hg pos. induction H as [|[[x0 x1] x2] [[w0 w1] w2] ts' tris' (A0 & A1 & A2) _ IH]; [intros x []|].
    intros x Hx. cbn in Hx. cbn [flat3 flat_map]. destruct Hx as [<-|[<-|[<-|Hx]]].
    - exists w2. split; [exact A0|]. cbn. auto.
    - exists w1. split; [exact A1|]. cbn. auto.
    - exists w0. split; [exact A2|]. cbn. auto.
    - destruct (IH x Hx) as (v & Hv & Hin). exists v. split; [exact Hv|]. cbn. auto. }
  assert (Hgr : groups L (points_of ts)).
  { split; [|split].
    - intros x Hx. destruct (Hall x Hx) as (v & Hv & _). apply (Hlab x x v v Hv Hv). reflexivity.
    - intros x y Hx Hy E. destruct (Hall x Hx) as (v & Hv & _), (Hall y Hy) as (w & Hw & _). apply (Hlab y x w v Hw Hv).
      symmetry. apply (Hlab x y v w Hv Hw). exact E.
    - intros x y z Hx Hy Hz E E'. destruct (Hall x Hx) as (v & Hv & _), (Hall y Hy) as (w & Hw & _), (Hall z Hz) as (u & Hu & _).
      apply (Hlab x z v u Hv Hu). transitivity w; [apply (Hlab x y v w Hv Hw)|apply (Hlab y z w u Hw Hu)]; assumption. }
  assert (Hex : forall v, In v (flat3 tris) -> exists z, In z (points_of ts) /\ lab z v).
  { clear Hg pos Hall Hgr. induction H as [|[[x0 x1] x2] [[w0 w1] w2] ts' tris' (A0 & A1 & A2) _ IH]; [intros x []|].
    intros v Hv. cbn in Hv. cbn. destruct Hv as [<-|[<-|[<-|Hv]]]; [exists x2; auto|exists x1; auto|exists x0; auto|].
    destruct (IH v Hv) as (z & Hz & Hl). exists z. auto. }
  assert (Hfe : forall x v, lab x v -> In v (flat3 tris) -> first_equal L (points_of ts) x = pos v /\ lab (pos v) v).
  { intros x v Hv Hin.
    assert (E : find (fun z : point S => veq L z x) (points_of ts) = find (fun z : point S => veq L z (g v)) (points_of ts)).
    { apply find_ext. intros z Hz. destruct (Hall z Hz) as (w & Hw & _).
      pose proof (Hlab z x w v Hw Hv) as (K1 & K2). pose proof (Hlab z (g v) w v Hw (Hg v Hin)) as (K3 & K4).
      destruct (veq L z x), (veq L z (g v)); auto; symmetry; auto. }
    destruct (find (fun z : point S => veq L z (g v)) (points_of ts)) as [z|] eqn:F.
    - assert (P : pos v = z) by exact (fe_some L _ _ _ F). rewrite P. split; [exact (fe_some L _ _ _ E)|].
      apply find_some in F as (F1 & F2). destruct (Hall z F1) as (w & Hw & _).
      rewrite <- (proj1 (Hlab z (g v) w v Hw (Hg v Hin)) F2). exact Hw.
    - exfalso. destruct (Hex v Hin) as (z & Hz & Hzv). pose proof (find_none _ _ F z Hz) as K. cbn beta in K.
      rewrite (proj2 (Hlab z (g v) v v Hzv (Hg v Hin)) eq_refl) in K. discriminate. }
  split; [exact Hgr|]. split.
  - assert (K : forall ts' tris', Forall2 (fun t T => let '(x0, x1, x2) := t in let '(v0, v1, v2) := rev3 T in lab x0 v0 /\ lab x1 v1 /\ lab x2 v2) ts' tris' ->
      (forall v, In v (flat3 tris') -> In v (flat3 tris)) -> map (weld L (points_of ts)) ts' = map rev3 (map (map3 pos) tris')).
    { intros ts' tris' H'. induction H' as [|[[x0 x1] x2] [[w0 w1] w2] ts' tris' (A0 & A1 & A2) _ IH]; intros Hin; [reflexivity|].
      cbn [map weld map3 rev3]. rewrite IH by (intros v Hv; apply Hin; cbn; auto).
      rewrite (proj1 (Hfe x0 w2 A0 ltac:(apply Hin; cbn; auto))), (proj1 (Hfe x1 w1 A1 ltac:(apply Hin; cbn; auto))), (proj1 (Hfe x2 w0 A2 ltac:(apply Hin; cbn; auto))). reflexivity. }
    exact (K ts tris H (fun v Hv => Hv)).
  - intros v Hv. exact (proj2 (Hfe (g v) v (Hg v Hv) Hv)).
Qed.
