(** * Lemmas on the solid enclosed by a mesh with floating-point vertices *)

From Coq Require Import List Arith Bool Lia Permutation ZArith Reals Lra Psatz.
From Flocq Require Import Core BinarySingleNaN.
From Verif Require Import Scalar Linal Result SpecReal VecR VecLemmas ModelKdTree SpecKdTree SpecTransform SpecIEEE SpecFloatErr SpecFloatTess SpecFloatOut SpecConvex SpecFloatConvex
  ModelShapes ModelTransform ModelMesh SpecMesh ModelTess SpecTess ProofTransform ProofTessComb ProofTessConn ProofTessMesh ProofTessSphere ProofTessRound ProofTess ProofVolume ProofArea ProofConvex
  ProofRound ProofIEEE ProofFloatErr ProofFloatDist ProofFloatTrig ProofTessSafe ProofMeshIEEE ProofMeshNormal ProofFloatTess ProofFloatRound ProofFloatOut ProofFloatVolume ProofFloatSkew.
Import ListNotations.
Local Open Scope R_scope.

Lemma sixvol_toward o w q a b c : sixvol (toward o w q) a b c = w * sixvol o a b c + (1 - w) * sixvol q a b c.
Proof. unfold sixvol, toward, along. v3. ring. Qed.
Lemma toward_dist o w q : rdist (toward o w q) o = Rabs (1 - w) * rdist q o.
Proof.
  unfold rdist, toward, along. replace (rsub (radd o (rscale (1 - w) (rsub q o))) o) with (rscale (1 - w) (rsub q o)) by (v3; repeat (f_equal; try ring)).
  apply rnorm_scale.
Qed.
(** the inverse of [toward] *)
Lemma toward_back o w q : w < 1 -> exists q', q = toward o w q' /\ (1 - w) * rdist q' o = rdist q o.
Proof.
  intros Hw. exists (along o (rsub q o) (/ (1 - w))).
  assert (E : q = toward o w (along o (rsub q o) (/ (1 - w)))).
  { unfold toward, along. v3. repeat (apply f_equal2; [field; lra|]). reflexivity. }
  split; [exact E|]. rewrite E at 2. rewrite toward_dist, Rabs_pos_eq by lra. reflexivity.
Qed.

(** moving the corners of a triangle, at most [R0] away from [o], by at most [dl] each,
    seen from [q] *)
Lemma sixvol_shift (o q a b c a' b' c' : vec R 3) (R0 dl : R) : rdist a o <= R0 -> rdist b o <= R0 -> rdist c o <= R0 ->
  rdist a' a <= dl -> rdist b' b <= dl -> rdist c' c <= dl -> 3 * dl <= R0 ->
  Rabs (sixvol q a' b' c' - sixvol q a b c) <= 18 * R0 * dl * (R0 + rdist q o).
Proof.
  intros Ha Hb Hc Da Db Dc Hd.
  assert (d0 : 0 <= dl) by (eapply Rle_trans; [apply (rnorm_nonneg (rsub a' a))|exact Da]).
  assert (q0 : 0 <= rdist q o) by apply rnorm_nonneg.
  assert (Sz : forall x, rdist x o <= R0 -> rnorm (rsub x a) <= 2 * R0).
  { intros x Hx. replace (rsub x a) with (radd (rsub x o) (rsub o a)) by (v3; repeat (f_equal; try ring)).
    eapply Rle_trans; [apply rnorm_triangle|]. assert (E : rnorm (rsub o a) = rdist a o) by (unfold rdist, rnorm; f_equal; v3; ring). rewrite E. unfold rdist in *. lra. }
  assert (Mv : forall x x', rdist x' x <= dl -> rnorm (rsub (rsub x' a') (rsub x a)) <= 2 * dl).
  { intros x x' Hx. replace (rsub (rsub x' a') (rsub x a)) with (radd (rsub x' x) (rsub a a')) by (v3; repeat (f_equal; try ring)).
    eapply Rle_trans; [apply rnorm_triangle|]. assert (E : rnorm (rsub a a') = rdist a' a) by (unfold rdist, rnorm; f_equal; v3; ring). rewrite E. unfold rdist in *. lra. }
  assert (Aq : rnorm (rsub a' q) <= dl + R0 + rdist q o).
  { replace (rsub a' q) with (radd (rsub a' a) (radd (rsub a o) (rsub o q))) by (v3; repeat (f_equal; try ring)).
    eapply Rle_trans; [apply rnorm_triangle|]. pose proof (rnorm_triangle (rsub a o) (rsub o q)) as T.
    assert (E : rnorm (rsub o q) = rdist q o) by (unfold rdist, rnorm; f_equal; v3; ring). rewrite E in T. unfold rdist in *. lra. }
  rewrite <- !behind_sixvol.
  set (u := rsub b a) in *. set (v := rsub c a) in *. set (u' := rsub b' a'). set (v' := rsub c' a').
  assert (Hu : rnorm u <= 2 * R0) by (apply Sz, Hb). assert (Hv : rnorm v <= 2 * R0) by (apply Sz, Hc).
  assert (Du : rnorm (rsub u' u) <= 2 * dl) by (apply Mv, Db). assert (Dv : rnorm (rsub v' v) <= 2 * dl) by (apply Mv, Dc).
  assert (HD : rnorm (rsub (rcross u' v') (rcross u v)) <= 10 * R0 * dl).
  { replace (rsub (rcross u' v') (rcross u v)) with (radd (rcross (rsub u' u) v) (radd (rcross u (rsub v' v)) (rcross (rsub u' u) (rsub v' v))))
      by (clearbody u v u' v'; v3; repeat (f_equal; try ring)).
    eapply Rle_trans; [apply rnorm_triangle|]. pose proof (rnorm_triangle (rcross u (rsub v' v)) (rcross (rsub u' u) (rsub v' v))) as T.
    pose proof (rcross_le (rsub u' u) v) as C1. pose proof (rcross_le u (rsub v' v)) as C2. pose proof (rcross_le (rsub u' u) (rsub v' v)) as C3.
    pose proof (rnorm_nonneg u) as N1. pose proof (rnorm_nonneg v) as N2. pose proof (rnorm_nonneg (rsub u' u)) as N3. pose proof (rnorm_nonneg (rsub v' v)) as N4.
    pose proof (Rmult_le_compat _ _ _ _ N3 N2 Du Hv) as P1. pose proof (Rmult_le_compat _ _ _ _ N1 N4 Hu Dv) as P2. pose proof (Rmult_le_compat _ _ _ _ N3 N4 Du Dv) as P3.
    assert (P4 : dl * (3 * dl) <= dl * R0) by (apply Rmult_le_compat_l; assumption).
    assert (P5 : 0 <= dl * R0) by (apply Rmult_le_pos; lra). lra. }
  assert (HN : rnorm (rcross u v) <= 4 * (R0 * R0)).
  { eapply Rle_trans; [apply rcross_le|]. pose proof (Rmult_le_compat _ _ _ _ (rnorm_nonneg u) (rnorm_nonneg v) Hu Hv) as P1. lra. }
  set (n := rcross u v) in *. set (n' := rcross u' v') in *.
  replace (rdot n' (rsub a' q) - rdot n (rsub a q)) with (rdot (rsub n' n) (rsub a' q) + rdot n (rsub a' a))
    by (clearbody n n'; clear; v3; ring).
  eapply Rle_trans; [apply Rabs_triang|].
  pose proof (cauchy_schwarz (rsub n' n) (rsub a' q)) as S1. pose proof (cauchy_schwarz n (rsub a' a)) as S2.
  pose proof (Rmult_le_compat _ _ _ _ (rnorm_nonneg _) (rnorm_nonneg _) HD Aq) as P1.
  pose proof (Rmult_le_compat _ _ _ _ (rnorm_nonneg _) (rnorm_nonneg (rsub a' a)) HN Da) as P2.
  assert (Rd : 0 <= R0 * dl) by (apply Rmult_le_pos; lra).
  assert (P3 : R0 * dl * (3 * dl) <= R0 * dl * R0) by (apply Rmult_le_compat_l; assumption).
  assert (P4 : 0 <= R0 * dl * rdist q o) by (apply Rmult_le_pos; assumption).
  assert (P5 : 0 <= R0 * dl * R0) by (apply Rmult_le_pos; lra). lra.
Qed.

(** If every vertex is within [c] of where it should be, the solid enclosed by the mesh
    and the exact solid contain each other up to a factor [1 - w] towards [o]. *)
Lemma float_sandwich {p e : Z} {Hp : Prec_gt_0 p} {He : Prec_lt_emax p e} fc fs fa fpi (L : Linal (IEEE p e Hp He fc fs fa fpi)) (self : addr)
    (G : point (IEEE p e Hp He fc fs fa fpi) -> Prop) (HG : veq_on L G) {V} (tris : list (V * V * V)) (fp : V -> point (IEEE p e Hp He fc fs fa fpi))
    (m : mesh (IEEE p e Hp He fc fs fa fpi)) (ok : V -> Prop) (rp : V -> vec R 3) (o : vec R 3) (R0 c D w : R) :
  well_formed L self (solid_triangles (IEEE p e Hp He fc fs fa fpi) tris fp) m -> (forall x y z, In (x, y, z) tris -> ok x /\ ok y /\ ok z) ->
  (forall v, ok v -> G (fp v)) -> (forall v, ok v -> close_to c (fp v : vec (binary_float p e) 3) (rp v)) -> (forall v, ok v -> rdist (rp v) o <= R0) ->
  (forall x y z, In (x, y, z) tris -> D <= sixvol o (rp z) (rp y) (rp x)) ->
  0 < R0 -> 0 <= c -> 6 * c <= R0 -> 0 <= w <= 1 / 2 -> 96 * (R0 * R0) * c <= w * D ->
  let exact q := forall x y z, In (x, y, z) tris -> 0 <= sixvol q (rp z) (rp y) (rp x) in
  (forall q, exact q -> rdist q o <= R0) ->
  (forall q, exact q -> float_enclosed m (toward o w q)) /\ (forall q, float_enclosed m q -> exact (toward o w q)).
Proof.
  intros Hw Hok HGf Hc Hd HD R00 c0 H6 (w0 & w1) H96 exact Hex.
  pose proof (facet_triangles L self G HG (solid_triangles (IEEE p e Hp He fc fs fa fpi) tris fp) m) as K. specialize (K ltac:(intros q Hq; unfold points_of in Hq; apply in_flat_map in Hq as (t & Ht & Hq); unfold solid_triangles in Ht; apply in_map_iff in Ht as (t1 & <- & Ht); apply in_map_iff in Ht as ([[x y] z] & <- & Ht); destruct (Hok x y z Ht) as (A1 & A2 & A3); cbn in Hq; destruct Hq as [<-|[<-|[<-|[]]]]; apply HGf; assumption) Hw).
  unfold solid_triangles in K. rewrite !map_map in K.
  set (ft := fun v => vreal (fp v : vec (binary_float p e) 3)).
  assert (F1 : forall q, (forall x y z, In (x, y, z) tris -> 0 <= sixvol q (ft z) (ft y) (ft x)) -> float_enclosed m q).
  { intros q Hq f Hf. apply (in_map (facet_triangle m)) in Hf. rewrite K in Hf. apply in_map_iff in Hf as ([[x y] z] & E & Hin).
    exists (fp z), (fp y), (fp x). split; [symmetry; exact E|]. unfold behind. rewrite behind_sixvol. exact (Hq x y z Hin). }
  assert (F2 : forall q, float_enclosed m q -> forall x y z, In (x, y, z) tris -> 0 <= sixvol q (ft z) (ft y) (ft x)).
  { intros q Hq x y z Hin. assert (Hf : In (Some (fp z, fp y, fp x)) (map (facet_triangle m) (m_facets m))).
    { rewrite K. apply in_map_iff. exists (x, y, z). split; [reflexivity|exact Hin]. }
    apply in_map_iff in Hf as (f & E & Hf). destruct (Hq f Hf) as (q0 & q1 & q2 & E' & Hb). rewrite E in E'. injection E' as <- <- <-.
    unfold behind in Hb. rewrite behind_sixvol in Hb. exact Hb. }
  assert (Sh : forall q x y z, In (x, y, z) tris -> Rabs (sixvol q (ft z) (ft y) (ft x) - sixvol q (rp z) (rp y) (rp x)) <= 36 * R0 * c * (R0 + rdist q o)).
  { intros q x y z Hin. destruct (Hok x y z Hin) as (A1 & A2 & A3).
    replace (36 * R0 * c * (R0 + rdist q o)) with (18 * R0 * (2 * c) * (R0 + rdist q o)) by ring.
    apply sixvol_shift; try (apply close_dist, Hc; assumption); try (apply Hd; assumption). lra. }
  assert (Rc : 0 <= R0 * c) by (apply Rmult_le_pos; lra). assert (RRc : 0 <= R0 * R0 * c) by (repeat apply Rmult_le_pos; lra).
  split.
  - intros q Hq. apply F1. intros x y z Hin. pose proof (Sh (toward o w q) x y z Hin) as B. apply Rabs_le_inv in B.
    assert (Hqd : rdist (toward o w q) o <= R0).
    { rewrite toward_dist, Rabs_pos_eq by lra. pose proof (Hex q Hq) as H1. assert (0 <= rdist q o) by apply rnorm_nonneg.
      apply Rle_trans with (1 * rdist q o); [apply Rmult_le_compat_r; lra|lra]. }
    assert (B2 : 36 * R0 * c * (R0 + rdist (toward o w q) o) <= 72 * (R0 * R0) * c).
    { apply Rle_trans with (36 * (R0 * c) * (R0 + R0)); [|lra]. replace (36 * R0 * c) with (36 * (R0 * c)) by ring. apply Rmult_le_compat_l; lra. }
    assert (E : w * D <= sixvol (toward o w q) (rp z) (rp y) (rp x)).
    { rewrite sixvol_toward. assert (w * D <= w * sixvol o (rp z) (rp y) (rp x)) by (apply Rmult_le_compat_l; [lra|apply HD, Hin]).
      assert (0 <= (1 - w) * sixvol q (rp z) (rp y) (rp x)) by (apply Rmult_le_pos; [lra|apply Hq, Hin]). lra. }
    lra.
  - intros q Hq. pose proof (F2 q Hq) as H. set (x := rdist q o).
    assert (x0 : 0 <= x) by apply rnorm_nonneg.
    (* how far away [q] can be *)
    assert (low : forall x1 y1 z1, In (x1, y1, z1) tris -> - (36 * (R0 * c) * (R0 + x)) <= sixvol q (rp z1) (rp y1) (rp x1)).
    { intros x1 y1 z1 Hin. pose proof (Sh q x1 y1 z1 Hin) as B. fold x in B. apply Rabs_le_inv in B. pose proof (H x1 y1 z1 Hin). replace (36 * (R0 * c)) with (36 * R0 * c) by ring. lra. }
    set (k := 36 * (R0 * c) * (R0 + x)) in *. assert (k0 : 0 <= k) by (apply Rmult_le_pos; lra).
    destruct (Req_dec c 0) as [Ec|Ec].
    { assert (Ek : k = 0) by (unfold k; rewrite Ec; ring). intros x1 y1 z1 Hin. rewrite sixvol_toward.
      assert (W : 0 <= w * D) by lra.
      assert (w * D <= w * sixvol o (rp z1) (rp y1) (rp x1)) by (apply Rmult_le_compat_l; [lra|apply HD, Hin]).
      assert (0 <= (1 - w) * sixvol q (rp z1) (rp y1) (rp x1)) by (apply Rmult_le_pos; [lra|pose proof (low x1 y1 z1 Hin); lra]). lra. }
    assert (RRc' : 0 < R0 * R0 * c) by (repeat apply Rmult_lt_0_compat; lra).
    assert (Dpos : 192 * (R0 * R0 * c) <= D).
    { assert (0 < w * D) by lra. assert (0 < D). { destruct (Rle_or_lt D 0) as [Dn|]; [|assumption]. assert (w * D <= w * 0) by (apply Rmult_le_compat_l; lra). lra. }
      assert (w * D <= 1 / 2 * D) by (apply Rmult_le_compat_r; lra). lra. }
    assert (Fx : 3 * x <= 5 * R0).
    { set (s := k / (D + k)). assert (Ds : 0 < D + k) by lra.
      assert (s0 : 0 <= s < 1).
      { unfold s. split; [apply Rmult_le_pos; [lra|left; apply Rinv_0_lt_compat, Ds]|]. apply Rmult_lt_reg_r with (D + k); [exact Ds|].
        unfold Rdiv. rewrite Rmult_assoc, Rinv_l, Rmult_1_r, Rmult_1_l by lra. lra. }
      assert (Es : s * D = (1 - s) * k) by (unfold s; field; lra).
      assert (Hs : exact (toward o s q)).
      { intros x1 y1 z1 Hin. rewrite sixvol_toward.
        assert (s * D <= s * sixvol o (rp z1) (rp y1) (rp x1)) by (apply Rmult_le_compat_l; [lra|apply HD, Hin]).
        assert ((1 - s) * (- k) <= (1 - s) * sixvol q (rp z1) (rp y1) (rp x1)) by (apply Rmult_le_compat_l; [lra|apply low, Hin]). lra. }
      apply Hex in Hs. rewrite toward_dist, Rabs_pos_eq in Hs by lra. fold x in Hs.
      assert (Q : D * x <= (D + k) * R0).
      { replace (D * x) with ((D + k) * ((1 - s) * x)) by (unfold s; field; lra). apply Rmult_le_compat_l; lra. }
      assert (Ek : k * R0 = 36 * (R0 * R0 * c) * (R0 + x)) by (unfold k; ring).
      assert (Q2 : 144 * (R0 * R0 * c) * (R0 + x) <= D * (R0 + x)) by (apply Rmult_le_compat_r; lra).
      assert (Q3 : 4 * (D * x) <= 4 * (D * R0) + D * (R0 + x)) by lra.
      apply Rmult_le_reg_l with D; [lra|]. lra. }
    assert (Hk : k <= 96 * (R0 * R0) * c).
    { unfold k. apply Rle_trans with (36 * (R0 * c) * (8 / 3 * R0)); [apply Rmult_le_compat_l; lra|lra]. }
    intros x1 y1 z1 Hin. rewrite sixvol_toward.
    assert (w * D <= w * sixvol o (rp z1) (rp y1) (rp x1)) by (apply Rmult_le_compat_l; [lra|apply HD, Hin]).
    assert ((1 - w) * (- k) <= (1 - w) * sixvol q (rp z1) (rp y1) (rp x1)) by (apply Rmult_le_compat_l; [lra|apply low, Hin]).
    assert (0 <= w * k) by (apply Rmult_le_pos; lra). lra.
Qed.
