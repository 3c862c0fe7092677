(** * Lemmas on the volume of a mesh with floating-point vertices *)

From Coq Require Import List Arith Bool Lia Permutation ZArith Reals Lra.
From Flocq Require Import Core BinarySingleNaN.
From Verif Require Import Scalar Linal Result SpecReal VecR VecLemmas ModelKdTree SpecKdTree SpecTransform SpecIEEE SpecFloatErr SpecFloatTess SpecFloatOut SpecFloatVolume
  ModelShapes ModelTransform ModelMesh SpecMesh ModelTess SpecTess ProofTransform ProofTessComb ProofTessConn ProofTessMesh ProofTessSphere ProofTessRound ProofTess ProofVolume ProofConvex
  ProofRound ProofIEEE ProofFloatErr ProofFloatDist ProofFloatTrig ProofTessSafe ProofMeshIEEE ProofMeshNormal ProofFloatTess ProofFloatRound ProofFloatOut.
Import ListNotations.
Local Open Scope R_scope.

Lemma sumR_abs {A} (f : A -> R) b l : (forall x, In x l -> Rabs (f x) <= b) -> Rabs (sumR (map f l)) <= INR (length l) * b.
Proof.
  induction l as [|x l IH]; intros H; cbn [map length].
  - unfold sumR. cbn. rewrite Rabs_R0. lra.
  - rewrite S_INR. change (sumR (f x :: map f l)) with (f x + sumR (map f l)).
    pose proof (Rabs_triang (f x) (sumR (map f l))). pose proof (H x (or_introl eq_refl)). specialize (IH (fun y Hy => H y (or_intror Hy))). lra.
Qed.

(** moving three vectors of length at most [R0] by at most [dl] each *)
Lemma det_shift (a b c a' b' c' : vec R 3) (R0 dl : R) : rnorm a <= R0 -> rnorm b <= R0 -> rnorm c <= R0 ->
  rdist a' a <= dl -> rdist b' b <= dl -> rdist c' c <= dl -> 3 * dl <= R0 ->
  Rabs (det a' b' c' - det a b c) <= 9 / 2 * (R0 * R0) * dl.
Proof.
  intros Ha Hb Hc Da Db Dc Hd. pose proof (rnorm_nonneg a) as Na. pose proof (rnorm_nonneg b) as Nb.
  assert (d0 : 0 <= dl) by (eapply Rle_trans; [apply (rnorm_nonneg (rsub a' a))|exact Da]).
  assert (K : forall x x' : vec R 3, rnorm x <= R0 -> rdist x' x <= dl -> rnorm x' <= 4 / 3 * R0).
  { intros x x' Hx Hd'. replace x' with (radd x (rsub x' x)) by (v3; repeat (f_equal; try ring)). eapply Rle_trans; [apply rnorm_triangle|]. unfold rdist in Hd'. lra. }
  pose proof (K b b' Hb Db) as Hb'. pose proof (K c c' Hc Dc) as Hc'.
  pose proof (rnorm_nonneg b') as Nb'. pose proof (rnorm_nonneg c') as Nc'.
  rewrite (det_diff a b c a' b' c').
  replace (det a b c + _ - det a b c) with (det (rsub a' a) b' c' + det a (rsub b' b) c' + det a b (rsub c' c)) by ring.
  pose proof (det_le (rsub a' a) b' c') as D1. pose proof (det_le a (rsub b' b) c') as D2. pose proof (det_le a b (rsub c' c)) as D3.
  unfold rdist in Da, Db, Dc. pose proof (rnorm_nonneg (rsub a' a)) as N1. pose proof (rnorm_nonneg (rsub b' b)) as N2. pose proof (rnorm_nonneg (rsub c' c)) as N3.
  assert (P : forall x y z X Y Z, 0 <= x <= X -> 0 <= y <= Y -> 0 <= z <= Z -> x * y * z <= X * Y * Z).
  { intros x y z X Y Z (x0 & x1) (y0 & y1) (z0 & z1). apply Rmult_le_compat; [apply Rmult_le_pos; assumption|assumption| |assumption]. apply Rmult_le_compat; assumption. }
  pose proof (P _ _ _ _ _ _ (conj N1 Da) (conj Nb' Hb') (conj Nc' Hc')) as Q1.
  pose proof (P _ _ _ _ _ _ (conj Na Ha) (conj N2 Db) (conj Nc' Hc')) as Q2.
  pose proof (P _ _ _ _ _ _ (conj Na Ha) (conj Nb Hb) (conj N3 Dc)) as Q3.
  assert (Q0 : 0 <= R0 * R0 * dl) by (apply Rmult_le_pos; [apply Rle_0_sqr|exact d0]).
  assert (T : forall x y z, Rabs (x + y + z) <= Rabs x + Rabs y + Rabs z).
  { intros x y z. eapply Rle_trans; [apply Rabs_triang|]. pose proof (Rabs_triang x y). lra. }
  eapply Rle_trans; [apply T|].
  replace (dl * (4 / 3 * R0) * (4 / 3 * R0)) with (16 / 9 * (R0 * R0 * dl)) in Q1 by field.
  replace (R0 * dl * (4 / 3 * R0)) with (4 / 3 * (R0 * R0 * dl)) in Q2 by field.
  lra.
Qed.

(** If every vertex is within [c] of where it should be, the volume, measured from any
    point [a], is that of the exact solid up to one and a half times the number of
    facets times [c] times the square of the size [R0]. *)
Lemma float_volume_close {p e : Z} {Hp : Prec_gt_0 p} {He : Prec_lt_emax p e} fc fs fa fpi (L : Linal (IEEE p e Hp He fc fs fa fpi)) (self : addr)
    (G : point (IEEE p e Hp He fc fs fa fpi) -> Prop) (HG : veq_on L G) {V} (tris : list (V * V * V)) (fp : V -> point (IEEE p e Hp He fc fs fa fpi))
    (m : mesh (IEEE p e Hp He fc fs fa fpi)) (ok : V -> Prop) (rp : V -> vec R 3) (o a : vec R 3) (R0 c : R) (N : nat) :
  length tris = N -> closed_oriented (flat_map edges3 tris) ->
  well_formed L self (solid_triangles (IEEE p e Hp He fc fs fa fpi) tris fp) m -> (forall x y z, In (x, y, z) tris -> ok x /\ ok y /\ ok z) ->
  (forall v, ok v -> G (fp v)) -> (forall v, ok v -> close_to c (fp v : vec (binary_float p e) 3) (rp v)) -> (forall v, ok v -> rdist (rp v) o <= R0) ->
  6 * c <= R0 -> Rabs (float_volume a m - solid6 rp o tris / 6) <= 3 / 2 * INR N * (R0 * R0) * c.
Proof.
  intros HN Hcl Hw Hok HGf Hc Hd H6.
  assert (E : float_volume a m = solid6 (fun v => vreal (fp v : vec (binary_float p e) 3)) a tris / 6).
  { unfold float_volume.
    pose proof (facet_triangles L self G HG (solid_triangles (IEEE p e Hp He fc fs fa fpi) tris fp) m) as K. specialize (K ltac:(intros q Hq; unfold points_of in Hq; apply in_flat_map in Hq as (t & Ht & Hq); unfold solid_triangles in Ht; apply in_map_iff in Ht as (t1 & <- & Ht); apply in_map_iff in Ht as ([[x y] z] & <- & Ht); destruct (Hok x y z Ht) as (A1 & A2 & A3); cbn in Hq; destruct Hq as [<-|[<-|[<-|[]]]]; apply HGf; assumption) Hw).
    set (g := fun t : option (triangle (IEEE p e Hp He fc fs fa fpi)) => match t with
      | Some (q0, q1, q2) => rdot (rcross (rsub (vreal (q0 : vec (binary_float p e) 3)) a) (rsub (vreal (q1 : vec (binary_float p e) 3)) a))
                               (rsub (vreal (q2 : vec (binary_float p e) 3)) a) / 6
      | None => 0 end).
    transitivity (sumR (map g (map (facet_triangle m) (m_facets m)))).
    { rewrite map_map. reflexivity. }
    rewrite K. unfold solid_triangles. rewrite !map_map.
    unfold solid6, Rdiv. rewrite (Rmult_comm (sumR _) (/ 6)), <- sumR_scale. apply sumR_ext. intros [[x y] z] _. unfold g, sixvol. cbn [rev3 map3]. apply Rmult_comm. }
  rewrite E, (solid6_apex _ a o tris Hcl). unfold solid6.
  replace (sumR (map (fun t => let '(x, y, z) := t in sixvol o (vreal (fp z : vec (binary_float p e) 3)) (vreal (fp y : vec (binary_float p e) 3)) (vreal (fp x : vec (binary_float p e) 3))) tris) / 6 -
    sumR (map (fun t => let '(x, y, z) := t in sixvol o (rp z) (rp y) (rp x)) tris) / 6)
    with ((sumR (map (fun t => let '(x, y, z) := t in sixvol o (vreal (fp z : vec (binary_float p e) 3)) (vreal (fp y : vec (binary_float p e) 3)) (vreal (fp x : vec (binary_float p e) 3))) tris) -
    sumR (map (fun t => let '(x, y, z) := t in sixvol o (rp z) (rp y) (rp x)) tris)) / 6) by field.
  rewrite <- sumR_minus.
  match goal with |- Rabs (?x / 6) <= _ => assert (B : Rabs x <= INR (length tris) * (9 / 2 * (R0 * R0) * (2 * c))) end.
  { apply sumR_abs. intros [[x y] z] Hin. destruct (Hok x y z Hin) as (A1 & A2 & A3). unfold sixvol.
    assert (D : forall v, ok v -> rdist (rsub (vreal (fp v : vec (binary_float p e) 3)) o) (rsub (rp v) o) <= 2 * c).
    { intros v Hv. pose proof (close_dist _ _ _ (Hc v Hv)) as K. unfold rdist in *. replace (rsub (rsub (vreal (fp v : vec (binary_float p e) 3)) o) (rsub (rp v) o)) with (rsub (vreal (fp v : vec (binary_float p e) 3)) (rp v)); [exact K|].
      generalize (vreal (fp v : vec (binary_float p e) 3)). intros q. generalize (rp v). intros q'. v3. repeat (f_equal; try ring). }
    apply det_shift; try (apply D; assumption); try (apply Hd; assumption). lra. }
  rewrite HN in B. unfold Rdiv at 1. rewrite Rabs_mult, (Rabs_right (/ 6)) by lra. lra.
Qed.
