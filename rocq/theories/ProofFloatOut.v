(** * Lemmas: outward orientation in floating point *)

From Coq Require Import List Arith Bool Lia Reals Lra ZArith Permutation.
From Flocq Require Import Core BinarySingleNaN.
From Verif Require Import Scalar Linal Result SpecReal VecR VecLemmas SpecIEEE SpecTransform SpecFloatErr SpecFloatTess SpecFloatSkew SpecFloatNormal SpecFloatOut
  ModelKdTree SpecKdTree ModelShapes ModelTransform ModelMesh SpecMesh ModelTess SpecTess ProofTransform
  ProofMesh ProofMeshNormal ProofTessComb ProofTessConn ProofTessMesh ProofTessSphere ProofTessRound ProofTess ProofVolume ProofConvex
  ProofRound ProofIEEE ProofFloatErr ProofFloatDist ProofFloatTrig ProofFloatSkew ProofFloatNormal.
Import ListNotations.
Local Open Scope R_scope.

(** ** The triangle with three moved corners *)
Definition det (a b c : vec R 3) : R := rdot (rcross a b) c.
Lemma det_le a b c : Rabs (det a b c) <= rnorm a * rnorm b * rnorm c.
Proof.
  unfold det. eapply Rle_trans; [apply cauchy_schwarz|]. apply Rmult_le_compat_r; [apply rnorm_nonneg|apply rcross_le].
Qed.
Lemma det_diff a b c a' b' c' : det a' b' c' = det a b c + (det (rsub a' a) b' c' + det a (rsub b' b) c' + det a b (rsub c' c)).
Proof. unfold det. v3. ring. Qed.
Lemma norm_moved (a a' : vec R 3) R0 dl : rnorm a <= R0 -> rdist a' a <= dl -> rnorm a' <= R0 + dl.
Proof. intros A B. pose proof (rnorm_triangle a (rsub a' a)) as Q. rewrite radd_rsub in Q. unfold rdist in B. lra. Qed.
Lemma det_moved (a b c a' b' c' : vec R 3) (R0 dl D : R) : rnorm a <= R0 -> rnorm b <= R0 -> rnorm c <= R0 ->
  rdist a' a <= dl -> rdist b' b <= dl -> rdist c' c <= dl -> D <= det a b c -> 0 < D -> 8 * (R0 * R0) * dl <= D ->
  8 * dl <= R0 /\ 0 < R0 /\ D / 2 <= det a' b' c'.
Proof.
  intros Na Nb Nc Ma Mb Mc HD D0 Hdl.
  assert (d0 : 0 <= dl) by exact (Rle_trans _ _ _ (rnorm_nonneg (rsub a' a)) Ma). assert (R1 : 0 <= R0) by exact (Rle_trans _ _ _ (rnorm_nonneg a) Na).
  assert (P3 : forall x y z X Y Z, 0 <= x <= X -> 0 <= y <= Y -> 0 <= z <= Z -> x * y * z <= X * Y * Z).
  { intros x y z X Y Z HX HY HZ. apply Rmult_le_compat; try lra; [apply Rmult_le_pos; lra|apply Rmult_le_compat; lra]. }
  assert (DR : det a b c <= R0 * R0 * R0).
  { eapply Rle_trans; [apply Rle_abs|]. eapply Rle_trans; [apply det_le|]. apply P3; split; try apply rnorm_nonneg; assumption. }
  assert (Rp : 0 < R0). { destruct (Req_dec R0 0) as [E|E]; [|lra]. rewrite E in DR. lra. }
  assert (RR : 0 < R0 * R0) by (apply Rmult_lt_0_compat; exact Rp).
  assert (d8 : 8 * dl <= R0). { apply Rmult_le_reg_l with (R0 * R0); [exact RR|]. lra. }
  split; [exact d8|]. split; [exact Rp|].
  set (B := R0 + dl). assert (HB : 0 <= B) by (unfold B; lra).
  assert (Na' : rnorm a' <= B) by (apply (norm_moved a); assumption). assert (Nb' : rnorm b' <= B) by (apply (norm_moved b); assumption). assert (Nc' : rnorm c' <= B) by (apply (norm_moved c); assumption).
  assert (T1 : Rabs (det (rsub a' a) b' c') <= dl * B * B). { eapply Rle_trans; [apply det_le|]. apply P3; split; try apply rnorm_nonneg; assumption. }
  assert (T2 : Rabs (det a (rsub b' b) c') <= B * dl * B). { eapply Rle_trans; [apply det_le|]. apply P3; split; try apply rnorm_nonneg; try assumption. unfold B; lra. }
  assert (T3 : Rabs (det a b (rsub c' c)) <= B * B * dl). { eapply Rle_trans; [apply det_le|]. apply P3; split; try apply rnorm_nonneg; try assumption; unfold B; lra. }
  apply Rabs_le_inv in T1, T2, T3. rewrite (det_diff a b c a' b' c').
  assert (BB : B * B <= 9 / 8 * R0 * (9 / 8 * R0)) by (apply Rmult_le_compat; unfold B; lra).
  assert (dl * (B * B) <= dl * (9 / 8 * R0 * (9 / 8 * R0))) by (apply Rmult_le_compat_l; lra).
  lra.
Qed.

Lemma det_edges (o a b c : vec R 3) : det (rsub a o) (rsub b o) (rsub c o) = rdot (rcross (rsub b a) (rsub c b)) (rsub a o) /\
  det (rsub a o) (rsub b o) (rsub c o) = rdot (rcross (rsub b a) (rsub c b)) (rsub b o) /\
  det (rsub a o) (rsub b o) (rsub c o) = rdot (rcross (rsub b a) (rsub c b)) (rsub c o).
Proof. unfold det. repeat split; v3; ring. Qed.

(** ** One facet *)
Section FACET.
Context {p e : Z} {Hp : Prec_gt_0 p} {He : Prec_lt_emax p e}.
Notation bf := (binary_float p e).
Notation u := (uround p).
Context (fc fs fa : bf -> bf) (fpi : bf).
Notation S := (IEEE p e Hp He fc fs fa fpi).

Lemma facet_frame (q0 q1 q2 : vec bf 3) (r0 r1 r2 o : vec R 3) (R0 dl D : R) (K : Z) :
  finite_pt q0 -> finite_pt q1 -> finite_pt q2 ->
  rdist (vreal q0) r0 <= dl -> rdist (vreal q1) r1 <= dl -> rdist (vreal q2) r2 <= dl ->
  rdist r0 o <= R0 -> rdist r1 o <= R0 -> rdist r2 o <= R0 -> D <= sixvol o r0 r1 r2 -> 0 < D ->
  8 * (R0 * R0) * dl <= D -> 500 * u * (R0 * R0 * R0) <= D -> 1024 * u <= 1 -> scale_frame p e K R0 D ->
  let x0 := vreal q0 in let x1 := vreal q1 in let x2 := vreal q2 in let C := rcross (rsub x1 x0) (rsub x2 x1) in
  let B := 9 / 8 * R0 in let D' := det (rsub x0 o) (rsub x1 o) (rsub x2 o) in
  triangle_frame p e K x0 x1 x2 /\ 0 < R0 /\ D / 2 <= D' /\ 0 < rnorm C /\ D' <= corner_sine x0 x1 x2 * (4 * (B * B * B)) /\
  rnorm C = corner_sine x0 x1 x2 * (rnorm (rsub x1 x0) * rnorm (rsub x2 x1)) /\ rnorm (rsub x1 x0) * rnorm (rsub x2 x1) <= 4 * (B * B) /\
  (rdot C (rsub x0 o) = D' /\ rdot C (rsub x1 o) = D' /\ rdot C (rsub x2 o) = D') /\ rdist x0 o <= B /\ rdist x1 o <= B /\ rdist x2 o <= B.
Proof.
  intros F0 F1 F2 M0 M1 M2 N0 N1 N2 HD D0 H8 H500 Hu1 (K0 & K4 & HK1 & HK2). pose proof (@u_pos p) as Hu.
  intros x0 x1 x2 C B D'. fold x0 in M0. fold x1 in M1. fold x2 in M2.
  assert (MV : forall x r, rdist x r <= dl -> rdist (rsub x o) (rsub r o) <= dl).
  { intros x r H. unfold rdist in *. replace (rsub (rsub x o) (rsub r o)) with (rsub x r) by (apply eq_by_dot; vring). exact H. }
  destruct (det_moved (rsub r0 o) (rsub r1 o) (rsub r2 o) (rsub x0 o) (rsub x1 o) (rsub x2 o) R0 dl D N0 N1 N2 (MV _ _ M0) (MV _ _ M1) (MV _ _ M2) HD D0 H8) as (d8 & Rp & HD').
  fold D' in HD'.
  assert (B0 : 0 < B) by (unfold B; lra).
  assert (NB : forall x r, rdist x r <= dl -> rdist r o <= R0 -> rdist x o <= B).
  { intros x r H1 H2. pose proof (rdist_triangle x r o). unfold B. lra. }
  pose proof (NB _ _ M0 N0) as B1. pose proof (NB _ _ M1 N1) as B2. pose proof (NB _ _ M2 N2) as B3.
  set (E1 := rsub x1 x0). set (E2 := rsub x2 x1). change (rcross E1 E2) with C.
  destruct (det_edges o x0 x1 x2) as (I0 & I1 & I2). fold D' E1 E2 in I0, I1, I2. fold C in I0, I1, I2.
  assert (Y1 : rnorm E1 <= 2 * B). { pose proof (rdist_triangle x1 o x0) as Q. rewrite (rdist_sym o x0) in Q. unfold rdist at 1 in Q. fold E1 in Q. lra. }
  assert (Y2 : rnorm E2 <= 2 * B). { pose proof (rdist_triangle x2 o x1) as Q. rewrite (rdist_sym o x1) in Q. unfold rdist at 1 in Q. fold E2 in Q. lra. }
  pose proof (rnorm_nonneg E1) as Z1. pose proof (rnorm_nonneg E2) as Z2.
  assert (CB : D' <= rnorm C * B).
  { rewrite I0. eapply Rle_trans; [apply Rle_abs|]. eapply Rle_trans; [apply cauchy_schwarz|]. apply Rmult_le_compat_l; [apply rnorm_nonneg|exact B1]. }
  assert (CE : rnorm C <= rnorm E1 * rnorm E2) by apply rcross_le.
  assert (D1 : 0 < D') by lra.
  assert (PB : D' <= rnorm E1 * rnorm E2 * B) by (eapply Rle_trans; [exact CB|]; apply Rmult_le_compat_r; lra).
  assert (G1 : D' <= rnorm E1 * (2 * (B * B))).
  { eapply Rle_trans; [exact PB|]. replace (rnorm E1 * (2 * (B * B))) with (rnorm E1 * (2 * B) * B) by ring. apply Rmult_le_compat_r; [lra|]. apply Rmult_le_compat_l; lra. }
  assert (G2 : D' <= rnorm E2 * (2 * (B * B))).
  { eapply Rle_trans; [exact PB|]. replace (rnorm E1 * rnorm E2 * B) with (rnorm E2 * (rnorm E1 * B)) by ring. apply Rmult_le_compat_l; [lra|]. replace (2 * (B * B)) with (2 * B * B) by ring. apply Rmult_le_compat_r; lra. }
  assert (BB : 0 < B * B) by (apply Rmult_lt_0_compat; lra).
  assert (EB : B * B = 81 / 64 * (R0 * R0)) by (unfold B; field).
  assert (EBB : B * B * B = 729 / 512 * (R0 * R0 * R0)) by (unfold B; field).
  assert (P1 : 0 < rnorm E1). { destruct (Req_dec (rnorm E1) 0) as [Q|Q]; [rewrite Q in G1; lra|lra]. }
  assert (P2 : 0 < rnorm E2). { destruct (Req_dec (rnorm E2) 0) as [Q|Q]; [rewrite Q in G2; lra|lra]. }
  pose proof (bpow_gt_0 radix2 (- K)) as b0.
  assert (LOW : forall y, D' <= y * (2 * (B * B)) -> bpow radix2 (- K) <= y).
  { intros y Hy. apply Rmult_le_reg_r with (2 * (B * B)); [lra|]. eapply Rle_trans; [|exact Hy]. rewrite EB.
    assert (0 <= R0 * R0 * bpow radix2 (- K)) by (apply Rmult_le_pos; [apply Rmult_le_pos|]; lra). lra. }
  set (s := corner_sine x0 x1 x2).
  assert (Es : s = rnorm C / (rnorm E1 * rnorm E2)) by reflexivity.
  assert (PP : 0 < rnorm E1 * rnorm E2) by (apply Rmult_lt_0_compat; assumption).
  assert (EC : rnorm C = s * (rnorm E1 * rnorm E2)) by (rewrite Es; field; lra).
  assert (RRR : 0 < R0 * R0 * R0) by (repeat apply Rmult_lt_0_compat; assumption).
  assert (PP4 : rnorm E1 * rnorm E2 <= 4 * (B * B)). { replace (4 * (B * B)) with (2 * B * (2 * B)) by ring. apply Rmult_le_compat; lra. }
  assert (s0 : 0 < s). { rewrite Es. apply Rdiv_lt_0_compat; [|exact PP]. destruct (Req_dec (rnorm C) 0) as [Q|Q]; [rewrite Q in CB; lra|pose proof (rnorm_nonneg C); lra]. }
  assert (sB : D' <= s * (4 * (B * B * B))).
  { eapply Rle_trans; [exact CB|]. rewrite EC. replace (s * (4 * (B * B * B))) with (s * (4 * (B * B)) * B) by ring. apply Rmult_le_compat_r; [lra|]. apply Rmult_le_compat_l; lra. }
  assert (s40 : 40 * u <= s).
  { apply Rmult_le_reg_r with (4 * (B * B * B)); [lra|]. eapply Rle_trans; [|exact sB]. rewrite EBB.
    assert (0 <= u * (R0 * R0 * R0)) by (apply Rmult_le_pos; lra). lra. }
  assert (HT : triangle_frame p e K x0 x1 x2).
  { split; [exact K0|]. split; [exact K4|]. split; [split; [apply LOW; exact G1|change (rnorm E1 <= bpow radix2 K); unfold B in Y1; lra]|].
    split; [split; [apply LOW; exact G2|change (rnorm E2 <= bpow radix2 K); unfold B in Y2; lra]|exact s40]. }
  assert (C0 : 0 < rnorm C) by (rewrite EC; apply Rmult_lt_0_compat; assumption).
  repeat (split; [first [assumption|symmetry; assumption|repeat split; symmetry; assumption]|]). assumption.
Qed.

Lemma facet_out (q0 q1 q2 : vec bf 3) (r0 r1 r2 o : vec R 3) (R0 dl D : R) (K : Z) :
  finite_pt q0 -> finite_pt q1 -> finite_pt q2 ->
  rdist (vreal q0) r0 <= dl -> rdist (vreal q1) r1 <= dl -> rdist (vreal q2) r2 <= dl ->
  rdist r0 o <= R0 -> rdist r1 o <= R0 -> rdist r2 o <= R0 -> D <= sixvol o r0 r1 r2 -> 0 < D ->
  8 * (R0 * R0) * dl <= D -> 500 * u * (R0 * R0 * R0) <= D -> 1024 * u <= 1 -> scale_frame p e K R0 D ->
  let n := @normalize S 3 (@cross S (@vsub S 3 q1 q0) (@vsub S 3 q2 q1)) : vec bf 3 in
  finite_pt n /\ Rabs (rnorm (vreal n) - 1) <= 6 * u /\ faces_away o (vreal q0) (vreal q1) (vreal q2) /\
  0 < rdot (vreal n) (rsub (vreal q0) o) /\ 0 < rdot (vreal n) (rsub (vreal q1) o) /\ 0 < rdot (vreal n) (rsub (vreal q2) o).
Proof.
  intros F0 F1 F2 M0 M1 M2 N0 N1 N2 HD D0 H8 H500 Hu1 Hfr n. pose proof (@u_pos p) as Hu.
  destruct (facet_frame q0 q1 q2 r0 r1 r2 o R0 dl D K F0 F1 F2 M0 M1 M2 N0 N1 N2 HD D0 H8 H500 Hu1 Hfr) as (HT & Rp & HD' & C0 & sB & EC & PP4 & (I0 & I1 & I2) & B1 & B2 & B3).
  set (x0 := vreal q0) in *. set (x1 := vreal q1) in *. set (x2 := vreal q2) in *. set (D' := det (rsub x0 o) (rsub x1 o) (rsub x2 o)) in *.
  set (B := 9 / 8 * R0) in *. set (E1 := rsub x1 x0) in *. set (E2 := rsub x2 x1) in *. set (C := rcross E1 E2) in *. set (s := corner_sine x0 x1 x2) in *.
  assert (B0 : 0 < B) by (unfold B; lra). assert (D1 : 0 < D') by lra. assert (EBB : B * B * B = 729 / 512 * (R0 * R0 * R0)) by (unfold B; field).
  assert (RRR : 0 < R0 * R0 * R0) by (repeat apply Rmult_lt_0_compat; assumption).
  assert (s0 : 0 < s). { apply Rmult_lt_reg_r with (4 * (B * B * B)); [|rewrite Rmult_0_l; lra]. rewrite EBB. lra. }
  assert (PP : 0 < rnorm E1 * rnorm E2). { apply Rmult_lt_reg_l with s; [exact s0|]. rewrite Rmult_0_r. lra. }
  destruct (fn_normal fc fs fa fpi Hu1 K q0 q1 q2 F0 F1 F2 HT) as (A1 & A2 & A3 & _). fold x0 x1 x2 E1 E2 in A3. fold C in A3. fold s in A3.
  split; [exact A1|]. split; [exact A2|]. split.
  { unfold faces_away. rewrite behind_sixvol. change (0 < D'). exact D1. }
  assert (OUT : forall x, rdot C (rsub x o) = D' -> rdist x o <= B -> 0 < rdot (vreal n) (rsub x o)).
  { intros x Hx Bx. change (rnorm (rsub x o) <= B) in Bx. set (w := rsub x o) in *.
    assert (Q : rdot (vreal n) w = rdot (rdirection C) w + rdot (rsub (vreal n) (rdirection C)) w) by (rewrite rdot_sub_l; ring).
    pose proof (cauchy_schwarz (rsub (vreal n) (rdirection C)) w) as CS. change (rnorm (rsub (vreal n) (rdirection C))) with (rdist (vreal n) (rdirection C)) in CS. apply Rabs_le_inv in CS.
    assert (DW : rdot (rdirection C) w = D' / rnorm C) by (unfold rdirection; rewrite rdot_scale_l, Hx; field; lra).
    assert (ER : rdist (vreal n) (rdirection C) * rnorm w <= 24 * u / s * B).
    { apply Rmult_le_compat; try apply rnorm_nonneg; [exact A3|exact Bx]. }
    rewrite Q, DW. apply Rlt_le_trans with (D' / rnorm C - 24 * u / s * B); [|lra].
    apply Rmult_lt_reg_r with (rnorm C); [exact C0|]. rewrite Rmult_0_l.
    replace ((D' / rnorm C - 24 * u / s * B) * rnorm C) with (D' - 24 * u * B * (rnorm C / s)) by (field; split; lra).
    replace (rnorm C / s) with (rnorm E1 * rnorm E2) by (rewrite EC; field; lra).
    assert (X : 24 * u * B * (rnorm E1 * rnorm E2) <= 24 * u * B * (4 * (B * B))) by (apply Rmult_le_compat_l; [apply Rmult_le_pos; lra|exact PP4]).
    replace (24 * u * B * (4 * (B * B))) with (96 * u * (B * B * B)) in X by ring. rewrite EBB in X.
    assert (0 < u * (R0 * R0 * R0)) by (apply Rmult_lt_0_compat; lra). lra. }
  split; [apply OUT; [exact I0|exact B1]|]. split; [apply OUT; [exact I1|exact B2]|apply OUT; [exact I2|exact B3]].
Qed.
End FACET.

(** ** The mesh *)
Lemma solid_facet {S : Scalar} (L : Linal S) (self : addr) (G : point S -> Prop) (HG : veq_on L G) {V} (tris : list (V * V * V)) (pos : V -> point S) (m : mesh S) :
  well_formed L self (solid_triangles S tris pos) m -> (forall x y z, In (x, y, z) tris -> G (pos x) /\ G (pos y) /\ G (pos z)) ->
  forall k f, nth_error (m_facets m) k = Some f -> exists x y z, In (x, y, z) tris /\ facet_points m k (pos z) (pos y) (pos x) /\
    facet_triangle m f = Some (pos z, pos y, pos x) /\
    forall i h q, nth_error (m_halfedges m) i = Some h -> he_facet h = k -> nth_error (m_points m) (he_vertex h) = Some q -> q = pos z \/ q = pos y \/ q = pos x.
Proof.
  intros Hw HGt k f Hf. set (ts := solid_triangles S tris pos) in *.
  assert (Tri : forall t, In t ts -> exists x y z, In (x, y, z) tris /\ t = (pos z, pos y, pos x)).
  { intros t Hin. unfold ts, solid_triangles in Hin. apply in_map_iff in Hin as (t1 & <- & Hin). apply in_map_iff in Hin as ([[x y] z] & <- & Hin). exists x, y, z. auto. }
  assert (HGc : forall t c, In t ts -> G (corner t c)).
  { intros t c Ht. destruct (Tri t Ht) as (x & y & z & Hin & ->). destruct (HGt x y z Hin) as (A & B & C). destruct c as [|[|c]]; cbn; assumption. }
  assert (Hst : forall h p t c, nth_error (m_points m) (he_vertex h) = Some p -> In t ts -> stands_for L p (corner t c) -> p = corner t c).
  { intros h p t c Hq Ht [E|E]; [congruence|]. apply HG; [|apply HGc, Ht|exact E].
    destruct (wf_points_given _ _ _ _ Hw p (nth_error_In _ _ Hq)) as (t' & c' & Ht' & _ & ->). apply HGc, Ht'. }
  assert (Hk : (k < length ts)%nat) by (rewrite <- (wf_facet_count _ _ _ _ Hw); eapply nth_error_lt; eauto).
  destruct (nth_error_get _ _ Hk) as (t & Ht). pose proof (nth_error_In _ _ Ht) as Hin. destruct (Tri t Hin) as (x & y & z & Htri & ->).
  exists x, y, z. split; [exact Htri|].
  destruct (wf_facet _ _ _ _ Hw k f Hf) as (E0 & _).
  destruct (wf_halfedge _ _ _ _ Hw k _ 0%nat Ht ltac:(lia)) as (h0 & p0 & A0 & _ & _ & _ & N0 & _ & P0 & S0).
  destruct (wf_halfedge _ _ _ _ Hw k _ 1%nat Ht ltac:(lia)) as (h1 & p1 & A1 & _ & _ & _ & N1 & _ & P1 & S1).
  destruct (wf_halfedge _ _ _ _ Hw k _ 2%nat Ht ltac:(lia)) as (h2 & p2 & A2 & _ & _ & _ & N2 & _ & P2 & S2).
  apply (Hst h0) in S0; [|assumption|assumption]. apply (Hst h1) in S1; [|assumption|assumption]. apply (Hst h2) in S2; [|assumption|assumption].
  cbn in S0, S1, S2. subst p0 p1 p2.
  change ((0 + 1) mod 3)%nat with 1%nat in N0. change ((1 + 1) mod 3)%nat with 2%nat in N1. rewrite Nat.add_0_r in A0.
  split; [exists h0, h1, h2; repeat (split; [assumption|]); assumption|]. split.
  { unfold facet_triangle. rewrite E0, A0, N0, A1, N1, A2, P0, P1, P2. reflexivity. }
  intros i h q Hh Hfk Hq.
  assert (Hi : (i < 3 * length ts)%nat) by (rewrite <- (wf_halfedge_count _ _ _ _ Hw); eapply nth_error_lt; eauto).
  assert (Hc3 : (i mod 3 < 3)%nat) by (apply Nat.mod_upper_bound; lia).
  destruct (nth_error_get ts (i / 3)) as (t' & Ht'); [apply Nat.div_lt_upper_bound; lia|].
  destruct (wf_halfedge _ _ _ _ Hw _ _ _ Ht' Hc3) as (h' & p & Hh' & _ & Hf' & _ & _ & _ & Hp & Hs).
  rewrite <- Nat.div_mod in Hh' by lia. assert (h' = h) by congruence. subst h'.
  assert (Ek : (i / 3 = k)%nat) by congruence. rewrite Ek in Ht'. assert (t' = (pos z, pos y, pos x)) by congruence. subst t'.
  assert (p = q) by congruence. subst p. apply (Hst h) in Hs; [|assumption|assumption]. rewrite Hs.
  destruct (i mod 3)%nat as [|[|j]]; cbn; auto.
Qed.

Lemma close_dist {p e} c (x : vec (binary_float p e) 3) q : close_to c x q -> rdist (vreal x) q <= 2 * c.
Proof.
  intros (_ & H). unfold rdist. destruct (comp_ge (rsub (vreal x) q)) as (i & Hi & G). eapply Rle_trans; [exact G|].
  unfold rsub in *. rewrite (vnth_vmap2 0 0), vnth_real by exact Hi. specialize (H i Hi). lra.
Qed.

Lemma mesh_outward {p e : Z} {Hp : Prec_gt_0 p} {He : Prec_lt_emax p e} fc fs fa fpi (L : Linal (IEEE p e Hp He fc fs fa fpi)) (self : addr)
    (G : point (IEEE p e Hp He fc fs fa fpi) -> Prop) (HG : veq_on L G) {V} (tris : list (V * V * V)) (fp : V -> point (IEEE p e Hp He fc fs fa fpi))
    (m : mesh (IEEE p e Hp He fc fs fa fpi)) (ok : V -> Prop) (rp : V -> vec R 3) (o : vec R 3) (R0 c D : R) (K : Z) :
  well_formed L self (solid_triangles (IEEE p e Hp He fc fs fa fpi) tris fp) m -> (forall x y z, In (x, y, z) tris -> ok x /\ ok y /\ ok z) ->
  (forall v, ok v -> G (fp v)) -> (forall v, ok v -> close_to c (fp v : vec (binary_float p e) 3) (rp v)) -> (forall v, ok v -> rdist (rp v) o <= R0) ->
  (forall x y z, In (x, y, z) tris -> D <= sixvol o (rp z) (rp y) (rp x)) -> 0 < D ->
  16 * (R0 * R0) * c <= D -> 500 * uround p * (R0 * R0 * R0) <= D -> 1024 * uround p <= 1 -> scale_frame p e K R0 D ->
  float_outward self m o.
Proof.
  intros Hw Hok HGp Hc HR HD D0 H16 H500 Hu Hfr k f Hf.
  destruct (solid_facet L self G HG tris fp m Hw) with (k := k) (f := f) as (x & y & z & Hin & Hpt & Htri & Hq).
  { intros x y z Hin. destruct (Hok x y z Hin) as (A & B & C). auto. }
  { exact Hf. }
  destruct (Hok x y z Hin) as (Ox & Oy & Oz).
  assert (FF : forall v, ok v -> finite_pt (fp v : vec (binary_float p e) 3)) by (intros v Hv; apply (Hc v Hv)).
  destruct (facet_out fc fs fa fpi (fp z) (fp y) (fp x) (rp z) (rp y) (rp x) o R0 (2 * c) D K (FF z Oz) (FF y Oy) (FF x Ox)
    (close_dist _ _ _ (Hc z Oz)) (close_dist _ _ _ (Hc y Oy)) (close_dist _ _ _ (Hc x Ox)) (HR z Oz) (HR y Oy) (HR x Ox) (HD x y z Hin) D0) as (A1 & A2 & A3 & A4 & A5 & A6);
    [lra|assumption|assumption|assumption|].
  split.
  - exists (fp z), (fp y), (fp x). split; [exact Htri|]. split; [apply FF, Oz|]. split; [apply FF, Oy|]. split; [apply FF, Ox|exact A3].
  - eexists. split; [exact (facet_normal_points L self _ m Hw k f _ _ _ Hf Hpt)|]. split; [exact A1|]. split; [exact A2|].
    intros i he q Hh Hk Hqp. destruct (Hq i he q Hh Hk Hqp) as [-> |[-> | ->]]; assumption.
Qed.

(** ** How far the centre is behind the facets *)
(** All of the above about one mesh: its corners are within [c] of points that are at most
    [R0] from [o], with at least [D] for six times the volume over each facet. *)
Definition ready {p e : Z} {Hp : Prec_gt_0 p} {He : Prec_lt_emax p e} {fc fs fa fpi} (L : Linal (IEEE p e Hp He fc fs fa fpi)) (self : addr)
    (m : mesh (IEEE p e Hp He fc fs fa fpi)) (o : vec R 3) (R0 c D : R) (K : Z) (N : nat) : Prop :=
  (exists (V : Type) (G : point (IEEE p e Hp He fc fs fa fpi) -> Prop) (tris : list (V * V * V)) (fp : V -> point (IEEE p e Hp He fc fs fa fpi)) (ok : V -> Prop) (rp : V -> vec R 3),
    veq_on L G /\ length tris = N /\
    well_formed L self (solid_triangles (IEEE p e Hp He fc fs fa fpi) tris fp) m /\ (forall x y z, In (x, y, z) tris -> ok x /\ ok y /\ ok z) /\
    (forall v, ok v -> G (fp v)) /\ (forall v, ok v -> close_to c (fp v : vec (binary_float p e) 3) (rp v)) /\ (forall v, ok v -> rdist (rp v) o <= R0) /\
    (forall x y z, In (x, y, z) tris -> D <= sixvol o (rp z) (rp y) (rp x))) /\
  0 < D /\ 16 * (R0 * R0) * c <= D /\ 500 * uround p * (R0 * R0 * R0) <= D /\ 1024 * uround p <= 1 /\ scale_frame p e K R0 D.
Lemma mk_ready {p e : Z} {Hp : Prec_gt_0 p} {He : Prec_lt_emax p e} fc fs fa fpi (L : Linal (IEEE p e Hp He fc fs fa fpi)) (self : addr)
    (G : point (IEEE p e Hp He fc fs fa fpi) -> Prop) (HG : veq_on L G) {V} (tris : list (V * V * V)) (fp : V -> point (IEEE p e Hp He fc fs fa fpi))
    (m : mesh (IEEE p e Hp He fc fs fa fpi)) (ok : V -> Prop) (rp : V -> vec R 3) (o : vec R 3) (R0 c D : R) (K : Z) (N : nat) :
  length tris = N ->
  well_formed L self (solid_triangles (IEEE p e Hp He fc fs fa fpi) tris fp) m -> (forall x y z, In (x, y, z) tris -> ok x /\ ok y /\ ok z) ->
  (forall v, ok v -> G (fp v)) -> (forall v, ok v -> close_to c (fp v : vec (binary_float p e) 3) (rp v)) -> (forall v, ok v -> rdist (rp v) o <= R0) ->
  (forall x y z, In (x, y, z) tris -> D <= sixvol o (rp z) (rp y) (rp x)) -> 0 < D ->
  16 * (R0 * R0) * c <= D -> 500 * uround p * (R0 * R0 * R0) <= D -> 1024 * uround p <= 1 -> scale_frame p e K R0 D -> ready L self m o R0 c D K N.
Proof. intros H0 H2 H3 H4 H5 H6 H7 H8 H9 H10 H11 H12. split; [exists V, G, tris, fp, ok, rp; auto 10|]. auto. Qed.
Lemma ready_outward {p e : Z} {Hp : Prec_gt_0 p} {He : Prec_lt_emax p e} fc fs fa fpi (L : Linal (IEEE p e Hp He fc fs fa fpi)) self m o R0 c D K N :
  ready L self m o R0 c D K N -> float_outward self m o.
Proof.
  intros ((V & G & tris & fp & ok & rp & H1 & _ & H2 & H3 & H4 & H5 & H6 & H7) & H8 & H9 & H10 & H11 & H12).
  exact (mesh_outward fc fs fa fpi L self G H1 tris fp m ok rp o R0 c D K H2 H3 H4 H5 H6 H7 H8 H9 H10 H11 H12).
Qed.

Lemma azi_sine a : (3 <= a)%nat -> 2 / INR a <= sin (2 * PI / INR a).
Proof. intros Ha. pose proof (sin_frac a 2 ltac:(lia)) as H. cbn [INR] in H. replace ((1 + 1) * (PI / INR a)) with (2 * PI / INR a) in H by (unfold Rdiv; ring). exact H. Qed.
Section SPHERE.
  Context (p a : nat) (Hp : (2 <= p)%nat) (Ha : (3 <= a)%nat) (o : vec R 3) (r : R) (Hr : 0 < r).
  Notation spos := (spos p a o r).
  Lemma polar_sixvol th1 th2 th3 ph ps : sixvol o (polar o r th1 ph) (polar o r th2 ph) (polar o r th3 ps) =
    r * r * r * (sin (th2 - th1) * sin th3 * sin (ps - ph)).
  Proof.
    rewrite <- behind_sixvol. unfold polar. rewrite !sin_minus. destruct o as (x & y & z & []). cbn. ring.
  Qed.
  Lemma three_sines s1 s2 s3 : 2 / INR p <= s1 -> 2 / INR p <= s2 -> 2 / INR a <= s3 ->
    8 * (r * r * r) <= INR p * INR p * INR a * (r * r * r * (s1 * s2 * s3)).
  Proof.
    intros H1 H2 H3. assert (P : 0 < INR p) by (apply (lt_INR 0); lia). assert (A : 0 < INR a) by (apply (lt_INR 0); lia).
    assert (T1 : 2 <= INR p * s1) by (apply Rmult_le_compat_l with (r := INR p) in H1; [|lra]; replace (INR p * (2 / INR p)) with 2 in H1 by (field; lra); exact H1).
    assert (T2 : 2 <= INR p * s2) by (apply Rmult_le_compat_l with (r := INR p) in H2; [|lra]; replace (INR p * (2 / INR p)) with 2 in H2 by (field; lra); exact H2).
    assert (T3 : 2 <= INR a * s3) by (apply Rmult_le_compat_l with (r := INR a) in H3; [|lra]; replace (INR a * (2 / INR a)) with 2 in H3 by (field; lra); exact H3).
    assert (T12 : 2 * 2 <= INR p * s1 * (INR p * s2)) by (apply Rmult_le_compat; lra).
    assert (T : 2 * 2 * 2 <= INR p * s1 * (INR p * s2) * (INR a * s3)) by (apply Rmult_le_compat; lra).
    replace (INR p * INR p * INR a * (r * r * r * (s1 * s2 * s3))) with (INR p * s1 * (INR p * s2) * (INR a * s3) * (r * r * r)) by ring.
    apply Rmult_le_compat_r; [|lra]. left. repeat apply Rmult_lt_0_compat; assumption.
  Qed.
  Lemma pol_sine i : (0 < i < p)%nat -> 2 / INR p <= sin (pol p i).
  Proof. intros H. exact (sin_frac p i H). Qed.
  Lemma step_sine : 2 / INR p <= sin (PI / INR p).
  Proof. pose proof (sin_frac p 1 ltac:(lia)) as H. cbn [INR] in H. rewrite Rmult_1_l in H. exact H. Qed.

  Lemma stri_sixvol t : tag_ok p a t -> let '(x, y, z) := stri p a t in 8 * (r * r * r) <= INR p * INR p * INR a * sixvol o (spos z) (spos y) (spos x).
  Proof.
    pose proof (azi_sine a Ha) as Hd. pose proof step_sine as S1.
    assert (Pv : forall i j, (j < a)%nat -> spos (Ring i (prv a j)) = polar o r (pol p (i + 1)) (azi a j - 2 * PI / INR a)).
    { intros i j Hj. cbn [ProofTessSphere.spos]. unfold polar. destruct (azi_prv a Ha j Hj) as [-> ->]. reflexivity. }
    assert (Tp : forall ph, spos Top = polar o r 0 ph).
    { intros ph. cbn [ProofTessSphere.spos]. unfold polar. rewrite sin_0, !Rmult_0_l. reflexivity. }
    assert (Bt : forall ph, spos Bot = polar o r PI ph).
    { intros ph. cbn [ProofTessSphere.spos]. unfold polar. rewrite sin_PI, !Rmult_0_l. reflexivity. }
    assert (Rv : forall i j, spos (Ring i j) = polar o r (pol p (i + 1)) (azi a j)) by reflexivity.
    assert (Da : forall j, azi a j - (azi a j - 2 * PI / INR a) = 2 * PI / INR a) by (intros j; ring).
    destruct t as [j|j|i j|i j]; cbn [tag_ok stri]; intros Ht; rewrite ?Pv by lia.
    - rewrite (Tp (azi a j - 2 * PI / INR a)), Rv, sixvol_rot, polar_sixvol, Rminus_0_r, Da || rewrite (Tp (azi a j - 2 * PI / INR a)), Rv, sixvol_rot, sixvol_rot, polar_sixvol, Rminus_0_r, Da.
      apply three_sines; [apply pol_sine; lia|apply pol_sine; lia|exact Hd].
    - rewrite (Bt (azi a j - 2 * PI / INR a)), Rv, polar_sixvol, sin_PI_x, Da. apply three_sines; [apply pol_sine; lia|apply pol_sine; lia|exact Hd].
    - rewrite Rv, polar_sixvol, Da. apply three_sines; [|apply pol_sine; lia|exact Hd].
      replace (i - 1 + 1)%nat with i by lia. rewrite (pol_S p). replace (pol p i + PI / INR p - pol p i) with (PI / INR p) by ring. exact S1.
    - rewrite !Rv, polar_sixvol. replace (i - 1 + 1)%nat with i by lia. rewrite (pol_S p).
      replace (pol p i - (pol p i + PI / INR p)) with (- (PI / INR p)) by ring.
      replace (azi a j - 2 * PI / INR a - azi a j) with (- (2 * PI / INR a)) by ring. rewrite !sin_neg.
      replace (- sin (PI / INR p) * sin (pol p i + PI / INR p) * - sin (2 * PI / INR a)) with
        (sin (PI / INR p) * sin (pol p i + PI / INR p) * sin (2 * PI / INR a)) by ring.
      apply three_sines; [exact S1| |exact Hd]. rewrite <- (pol_S p). apply pol_sine. lia.
  Qed.
  Lemma ctri_sixvol x y z : In (x, y, z) (map (ctri p a) (ctags p a)) -> 8 * (r * r * r) / (INR p * INR p * INR a) <= sixvol o (spos z) (spos y) (spos x).
  Proof.
    intros Hin. apply in_map_iff in Hin as (t & E & Ht). apply (ctags_ok p a Hp Ha) in Ht.
    pose proof (ctri_rot_sixvol p a o r t o) as K. rewrite E in K. pose proof (stri_sixvol t Ht) as Q. destruct (stri p a t) as [[x' y'] z']. rewrite K.
    assert (P : 0 < INR p) by (apply (lt_INR 0); lia). assert (A : 0 < INR a) by (apply (lt_INR 0); lia).
    assert (N : 0 < INR p * INR p * INR a) by (repeat apply Rmult_lt_0_compat; assumption).
    apply Rmult_le_reg_l with (INR p * INR p * INR a); [exact N|]. replace (INR p * INR p * INR a * (8 * (r * r * r) / (INR p * INR p * INR a))) with (8 * (r * r * r)) by (field; lra). exact Q.
  Qed.
End SPHERE.

Section ROUND.
  Context (a : nat) (Ha : (3 <= a)%nat) (r len : R) (Hr : 0 < r) (Hlen : 0 < len).
  Notation mid := (0, (0, (len / 2, tt))).
  Lemma sine_bound k : 1 <= k -> r * r * len / INR a <= r * r * sin (2 * PI / INR a) * (k * (len / 2)).
  Proof.
    intros Hk. assert (A : 0 < INR a) by (apply (lt_INR 0); lia). pose proof (azi_sine a Ha) as H.
    apply Rmult_le_reg_l with (INR a); [exact A|]. replace (INR a * (r * r * len / INR a)) with (r * r * len) by (field; lra).
    apply Rmult_le_compat_l with (r := INR a) in H; [|lra]. replace (INR a * (2 / INR a)) with 2 in H by (field; lra).
    replace (INR a * (r * r * sin (2 * PI / INR a) * (k * (len / 2)))) with (r * r * len * (INR a * sin (2 * PI / INR a) * (k / 2))) by field.
    assert (X : 0 < r * r * len) by (repeat apply Rmult_lt_0_compat; assumption).
    assert (Y : 1 <= INR a * sin (2 * PI / INR a) * (k / 2)). { apply Rle_trans with (2 * (1 / 2)); [lra|]. apply Rmult_le_compat; lra. }
    apply Rmult_le_compat_l with (r := r * r * len) in Y; [|lra]. lra.
  Qed.
  Lemma bottom_sixvol i j : (i < a)%nat -> j = nxt a i ->
    r * r * len / INR a <= sixvol mid (cylindrical r (azi a j) 0) (cylindrical r (azi a i) 0) (0, (0, (0, tt))).
  Proof.
    intros Hi ->. rewrite <- behind_sixvol. unfold cylindrical. destruct (azi_nxt a i Ha Hi) as [-> ->].
    rewrite cos_plus, sin_plus. pose proof (sine_bound 1 ltac:(lra)) as Hd. cbn.
    pose proof (sin2_cos2 (azi a i)) as K. unfold Rsqr in K.
    set (c := cos (azi a i)) in *. set (s := sin (azi a i)) in *. set (cd := cos (2 * PI / INR a)) in *. set (sd := sin (2 * PI / INR a)) in *.
    eapply Rle_trans; [exact Hd|]. right. transitivity (r * r * sd * (1 * (len / 2)) * (s * s + c * c)); [rewrite K; ring|ring].
  Qed.
  Lemma up_sixvol i j zr : (i < a)%nat -> j = nxt a i ->
    r * r * len / INR a <= sixvol mid (cylindrical r (azi a i) zr) (cylindrical r (azi a j) zr) (0, (0, (len, tt))).
  Proof.
    intros Hi ->. rewrite <- behind_sixvol. unfold cylindrical. destruct (azi_nxt a i Ha Hi) as [-> ->].
    rewrite cos_plus, sin_plus. pose proof (sine_bound 1 ltac:(lra)) as Hd. cbn.
    pose proof (sin2_cos2 (azi a i)) as K. unfold Rsqr in K.
    set (c := cos (azi a i)) in *. set (s := sin (azi a i)) in *. set (cd := cos (2 * PI / INR a)) in *. set (sd := sin (2 * PI / INR a)) in *.
    eapply Rle_trans; [exact Hd|]. right. transitivity (r * r * sd * (1 * (len / 2)) * (s * s + c * c)); [rewrite K; ring|field].
  Qed.
  Lemma ktri_sixvol x y z : In (x, y, z) (map (ktri a) (ktags a)) -> r * r * len / INR a <= sixvol mid (kpos a r len z) (kpos a r len y) (kpos a r len x).
  Proof.
    intros H. apply in_map_iff in H as ([j|j] & E & Ht); apply ktags_ok in Ht; cbn in Ht, E; injection E as <- <- <-.
    - apply bottom_sixvol; [exact Ht|reflexivity].
    - apply up_sixvol; [exact Ht|reflexivity].
  Qed.
  Lemma ytri_sixvol x y z : In (x, y, z) (map (ytri a) (ytags a)) -> r * r * len / INR a <= sixvol mid (ypos a r len z) (ypos a r len y) (ypos a r len x).
  Proof.
    intros H. apply in_map_iff in H as (t & E & Ht). apply ytags_ok in Ht.
    destruct t as [j|j|j|j]; cbn in Ht, E; injection E as <- <- <-; cbn [ypos].
    - apply bottom_sixvol; [exact Ht|reflexivity].
    - apply up_sixvol; [apply prv_lt; assumption|]. symmetry. apply nxt_prv; assumption.
    - rewrite <- behind_sixvol. unfold cylindrical. destruct (azi_nxt a j Ha Ht) as [-> ->].
      rewrite cos_plus, sin_plus. pose proof (sine_bound 2 ltac:(lra)) as Hd. cbn.
      pose proof (sin2_cos2 (azi a j)) as K. unfold Rsqr in K.
      set (c := cos (azi a j)) in *. set (s := sin (azi a j)) in *. set (cd := cos (2 * PI / INR a)) in *. set (sd := sin (2 * PI / INR a)) in *.
      eapply Rle_trans; [exact Hd|]. right. transitivity (r * r * sd * (2 * (len / 2)) * (s * s + c * c)); [rewrite K; ring|field].
    - rewrite <- behind_sixvol. unfold cylindrical. destruct (azi_nxt a j Ha Ht) as [-> ->].
      rewrite cos_plus, sin_plus. pose proof (sine_bound 2 ltac:(lra)) as Hd. cbn.
      pose proof (sin2_cos2 (azi a j)) as K. unfold Rsqr in K.
      set (c := cos (azi a j)) in *. set (s := sin (azi a j)) in *. set (cd := cos (2 * PI / INR a)) in *. set (sd := sin (2 * PI / INR a)) in *.
      eapply Rle_trans; [exact Hd|]. right. transitivity (r * r * sd * (2 * (len / 2)) * (s * s + c * c)); [rewrite K; ring|field].
  Qed.
  (** all vertices are near the middle *)
  Lemma axis_dist z : 0 <= z <= len -> @rdist 3 (0, (0, (z, tt))) mid <= r + len.
  Proof.
    intros Hz. unfold rdist, rnorm, rdot. cbn. apply Rle_trans with (sqrt ((r + len) * (r + len))); [|rewrite sqrt_square; lra].
    apply sqrt_le_1_alt. assert ((z - len / 2) * (z - len / 2) <= len * len) by nra. assert (0 < r * len) by (apply Rmult_lt_0_compat; assumption). nra.
  Qed.
  Lemma rim_dist ph z : 0 <= z <= len -> @rdist 3 (cylindrical r ph z) mid <= r + len.
  Proof.
    intros Hz. unfold rdist, rnorm, rdot, cylindrical. cbn. apply Rle_trans with (sqrt ((r + len) * (r + len))); [|rewrite sqrt_square; lra].
    apply sqrt_le_1_alt. assert ((z - len / 2) * (z - len / 2) <= len * len) by nra. assert (0 < r * len) by (apply Rmult_lt_0_compat; assumption).
    pose proof (sin2_cos2 ph) as K. unfold Rsqr in K.
    replace ((r * cos ph - 0) * (r * cos ph - 0) + ((r * sin ph - 0) * (r * sin ph - 0) + ((z - len / 2) * (z - len / 2) + 0))) with
      (r * r * (sin ph * sin ph + cos ph * cos ph) + (z - len / 2) * (z - len / 2)) by ring. rewrite K. lra.
  Qed.
  Lemma kpos_dist v : @rdist 3 (kpos a r len v) mid <= r + len.
  Proof. destruct v; cbn [kpos]; first [apply axis_dist; lra|apply rim_dist; lra]. Qed.
  Lemma ypos_dist v : @rdist 3 (ypos a r len v) mid <= r + len.
  Proof. destruct v; cbn [ypos]; first [apply axis_dist; lra|apply rim_dist; lra]. Qed.
End ROUND.
