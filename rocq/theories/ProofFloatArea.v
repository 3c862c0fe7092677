(** * Lemmas on the area of a mesh with floating-point vertices *)

From Coq Require Import List Arith Bool Lia Permutation ZArith Reals Lra Psatz.
From Flocq Require Import Core BinarySingleNaN.
From Verif Require Import Scalar Linal Result SpecReal VecR VecLemmas ModelKdTree SpecKdTree SpecTransform SpecIEEE SpecFloatErr SpecFloatTess SpecFloatOut SpecFloatVolume SpecArea SpecFloatArea
  ModelShapes ModelTransform ModelMesh SpecMesh ModelTess SpecTess ProofTransform ProofTessComb ProofTessConn ProofTessMesh ProofTessSphere ProofTessRound ProofTess ProofVolume ProofArea ProofConvex
  ProofRound ProofIEEE ProofFloatErr ProofFloatDist ProofFloatTrig ProofTessSafe ProofMeshIEEE ProofMeshNormal ProofFloatTess ProofFloatRound ProofFloatOut ProofFloatVolume ProofFloatSkew.
Import ListNotations.
Local Open Scope R_scope.

Lemma norm_shift (u v : vec R 3) : Rabs (rnorm u - rnorm v) <= rnorm (rsub u v).
Proof.
  pose proof (rnorm_triangle v (rsub u v)) as H1. replace (radd v (rsub u v)) with u in H1 by (v3; repeat (f_equal; try ring)).
  pose proof (rnorm_triangle u (rsub v u)) as H2. replace (radd u (rsub v u)) with v in H2 by (v3; repeat (f_equal; try ring)).
  assert (E : rnorm (rsub v u) = rnorm (rsub u v)) by (unfold rnorm; f_equal; v3; ring).
  apply Rabs_le. lra.
Qed.

(** moving the corners of a triangle, at most [R0] away from [o], by at most [dl] each *)
Lemma twice_shift (o a b c a' b' c' : vec R 3) (R0 dl : R) : rdist a o <= R0 -> rdist b o <= R0 -> rdist c o <= R0 ->
  rdist a' a <= dl -> rdist b' b <= dl -> rdist c' c <= dl -> 3 * dl <= R0 ->
  Rabs (twice a' b' c' - twice a b c) <= 10 * R0 * dl.
Proof.
  intros Ha Hb Hc Da Db Dc Hd. unfold twice.
  assert (d0 : 0 <= dl) by (eapply Rle_trans; [apply (rnorm_nonneg (rsub a' a))|exact Da]).
  assert (Sz : forall x, rdist x o <= R0 -> rnorm (rsub x a) <= 2 * R0).
  { intros x Hx. replace (rsub x a) with (radd (rsub x o) (rsub o a)) by (v3; repeat (f_equal; try ring)).
    eapply Rle_trans; [apply rnorm_triangle|]. assert (E : rnorm (rsub o a) = rdist a o) by (unfold rdist, rnorm; f_equal; v3; ring). rewrite E. unfold rdist in *. lra. }
  assert (Mv : forall x x', rdist x' x <= dl -> rnorm (rsub (rsub x' a') (rsub x a)) <= 2 * dl).
  { intros x x' Hx. replace (rsub (rsub x' a') (rsub x a)) with (radd (rsub x' x) (rsub a a')) by (v3; repeat (f_equal; try ring)).
    eapply Rle_trans; [apply rnorm_triangle|]. assert (E : rnorm (rsub a a') = rdist a' a) by (unfold rdist, rnorm; f_equal; v3; ring). rewrite E. unfold rdist in *. lra. }
  set (u := rsub b a) in *. set (v := rsub c a) in *. set (u' := rsub b' a'). set (v' := rsub c' a').
  assert (Hu : rnorm u <= 2 * R0) by (apply Sz, Hb). assert (Hv : rnorm v <= 2 * R0) by (apply Sz, Hc).
  assert (Du : rnorm (rsub u' u) <= 2 * dl) by (apply Mv, Db). assert (Dv : rnorm (rsub v' v) <= 2 * dl) by (apply Mv, Dc).
  eapply Rle_trans; [apply norm_shift|].
  replace (rsub (rcross u' v') (rcross u v)) with (radd (rcross (rsub u' u) v) (radd (rcross u (rsub v' v)) (rcross (rsub u' u) (rsub v' v))))
    by (clearbody u v u' v'; v3; repeat (f_equal; try ring)).
  eapply Rle_trans; [apply rnorm_triangle|]. pose proof (rnorm_triangle (rcross u (rsub v' v)) (rcross (rsub u' u) (rsub v' v))) as T.
  pose proof (rcross_le (rsub u' u) v) as C1. pose proof (rcross_le u (rsub v' v)) as C2. pose proof (rcross_le (rsub u' u) (rsub v' v)) as C3.
  pose proof (rnorm_nonneg u) as N1. pose proof (rnorm_nonneg v) as N2. pose proof (rnorm_nonneg (rsub u' u)) as N3. pose proof (rnorm_nonneg (rsub v' v)) as N4.
  pose proof (Rmult_le_compat _ _ _ _ N3 N2 Du Hv) as P1. pose proof (Rmult_le_compat _ _ _ _ N1 N4 Hu Dv) as P2. pose proof (Rmult_le_compat _ _ _ _ N3 N4 Du Dv) as P3.
  assert (P4 : dl * (3 * dl) <= dl * R0) by (apply Rmult_le_compat_l; assumption).
  assert (P5 : 0 <= dl * R0) by (apply Rmult_le_pos; lra). lra.
Qed.

(** If every vertex is within [c] of where it should be, the area is that of the exact
    surface up to ten times the number of facets times [c] times the size [R0]. *)
Lemma float_area_close {p e : Z} {Hp : Prec_gt_0 p} {He : Prec_lt_emax p e} fc fs fa fpi (L : Linal (IEEE p e Hp He fc fs fa fpi)) (self : addr)
    (G : point (IEEE p e Hp He fc fs fa fpi) -> Prop) (HG : veq_on L G) {V} (tris : list (V * V * V)) (fp : V -> point (IEEE p e Hp He fc fs fa fpi))
    (m : mesh (IEEE p e Hp He fc fs fa fpi)) (ok : V -> Prop) (rp : V -> vec R 3) (o : vec R 3) (R0 c : R) (N : nat) :
  length tris = N ->
  well_formed L self (solid_triangles (IEEE p e Hp He fc fs fa fpi) tris fp) m -> (forall x y z, In (x, y, z) tris -> ok x /\ ok y /\ ok z) ->
  (forall v, ok v -> G (fp v)) -> (forall v, ok v -> close_to c (fp v : vec (binary_float p e) 3) (rp v)) -> (forall v, ok v -> rdist (rp v) o <= R0) ->
  6 * c <= R0 -> Rabs (float_area m - twice_area rp tris / 2) <= 10 * INR N * R0 * c.
Proof.
  intros HN Hw Hok HGf Hc Hd H6.
  assert (E : float_area m = twice_area (fun v => vreal (fp v : vec (binary_float p e) 3)) tris / 2).
  { unfold float_area.
    pose proof (facet_triangles L self G HG (solid_triangles (IEEE p e Hp He fc fs fa fpi) tris fp) m) as K. specialize (K ltac:(intros q Hq; unfold points_of in Hq; apply in_flat_map in Hq as (t & Ht & Hq); unfold solid_triangles in Ht; apply in_map_iff in Ht as (t1 & <- & Ht); apply in_map_iff in Ht as ([[x y] z] & <- & Ht); destruct (Hok x y z Ht) as (A1 & A2 & A3); cbn in Hq; destruct Hq as [<-|[<-|[<-|[]]]]; apply HGf; assumption) Hw).
    set (g := fun t : option (triangle (IEEE p e Hp He fc fs fa fpi)) => match t with
      | Some (q0, q1, q2) => triangle_area (vreal (q0 : vec (binary_float p e) 3)) (vreal (q1 : vec (binary_float p e) 3)) (vreal (q2 : vec (binary_float p e) 3))
      | None => 0 end).
    transitivity (sumR (map g (map (facet_triangle m) (m_facets m)))).
    { rewrite map_map. reflexivity. }
    rewrite K. unfold solid_triangles. rewrite !map_map.
    unfold twice_area, Rdiv. rewrite (Rmult_comm (sumR _) (/ 2)), <- sumR_scale. apply sumR_ext. intros [[x y] z] _. unfold g, triangle_area, twice. cbn [rev3 map3]. apply Rmult_comm. }
  rewrite E. unfold twice_area.
  replace (sumR (map (fun t => let '(x, y, z) := t in twice (vreal (fp z : vec (binary_float p e) 3)) (vreal (fp y : vec (binary_float p e) 3)) (vreal (fp x : vec (binary_float p e) 3))) tris) / 2 -
    sumR (map (fun t => let '(x, y, z) := t in twice (rp z) (rp y) (rp x)) tris) / 2)
    with ((sumR (map (fun t => let '(x, y, z) := t in twice (vreal (fp z : vec (binary_float p e) 3)) (vreal (fp y : vec (binary_float p e) 3)) (vreal (fp x : vec (binary_float p e) 3))) tris) -
    sumR (map (fun t => let '(x, y, z) := t in twice (rp z) (rp y) (rp x)) tris)) / 2) by field.
  rewrite <- sumR_minus.
  match goal with |- Rabs (?x / 2) <= _ => assert (B : Rabs x <= INR (length tris) * (10 * R0 * (2 * c))) end.
  { apply sumR_abs. intros [[x y] z] Hin. destruct (Hok x y z Hin) as (A1 & A2 & A3).
    apply (twice_shift o); try (apply close_dist, Hc; assumption); try (apply Hd; assumption). lra. }
  rewrite HN in B. unfold Rdiv at 1. rewrite Rabs_mult, (Rabs_right (/ 2)) by lra. lra.
Qed.
