(** * The tessellations lie within the shapes *)

From Coq Require Import List Arith Bool Lia Reals Lra ZArith.
From Verif Require Import Scalar Linal Result SpecReal VecR VecLemmas ModelShapes ModelTransform SpecTransform
  ProofTransform ModelMesh SpecMesh ProofMeshNormal ModelTess SpecTess SpecConvex ProofTessComb ProofTessConn ProofTessMesh ProofTessSphere ProofTessRound
  ProofTess ProofTessCuboid ProofVolume ProofConvex.
Import ListNotations.
Local Open Scope R_scope.

(** ** Angles and their sectors *)
Lemma azimuth_exists x y : exists rho ph, 0 <= rho /\ 0 <= ph < 2 * PI /\ x = rho * cos ph /\ y = rho * sin ph /\ rho * rho = x * x + y * y.
Proof.
  pose proof PI_RGT_0 as P0. set (rho := sqrt (x * x + y * y)).
  assert (Q : 0 <= x * x + y * y) by nra. assert (Hr : 0 <= rho) by apply sqrt_pos. assert (E : rho * rho = x * x + y * y) by (apply sqrt_def, Q).
  destruct (Rle_lt_or_eq_dec 0 rho Hr) as [Hp|H0].
  2:{ exists 0, 0. assert (x = 0 /\ y = 0) by (rewrite <- H0 in E; split; nra). rewrite cos_0, sin_0. repeat split; lra || nra. }
  assert (B : -1 <= x / rho <= 1).
  { split; apply Rmult_le_reg_r with rho; try exact Hp; unfold Rdiv; rewrite Rmult_assoc, Rinv_l by lra; nra. }
  pose proof (cos_acos _ B) as C. pose proof (acos_bound (x / rho)) as [A1 A2].
  assert (S : sin (acos (x / rho)) = Rabs y / rho).
  { rewrite sin_acos by exact B. replace (1 - (x / rho)²) with ((Rabs y / rho)²).
    - apply sqrt_Rsqr. apply Rmult_le_pos; [apply Rabs_pos|left; apply Rinv_0_lt_compat, Hp].
    - unfold Rsqr. assert (Y : Rabs y * Rabs y = y * y) by (pose proof (Rsqr_abs y) as K; unfold Rsqr in K; lra).
      transitivity (Rabs y * Rabs y / (rho * rho)); [field; lra|]. rewrite Y.
      transitivity ((rho * rho - x * x) / (rho * rho)); [rewrite E; f_equal; ring|field; lra]. }
  destruct (Rle_lt_dec 0 y) as [Hy|Hy].
  - exists rho, (acos (x / rho)). rewrite C, S, Rabs_pos_eq by exact Hy.
    split; [exact Hr|]. split; [lra|]. split; [field; lra|]. split; [field; lra|exact E].
  - exists rho, (2 * PI - acos (x / rho)). rewrite cos_minus, sin_minus, cos_2PI, sin_2PI, C, S, Rabs_left by exact Hy.
    assert (acos (x / rho) <> 0).
    { intros K. rewrite K, sin_0 in S. rewrite Rabs_left in S by exact Hy. assert (0 < - y / rho) by (apply Rdiv_lt_0_compat; lra). lra. }
    split; [exact Hr|]. split; [lra|]. split; [field; lra|]. split; [field; lra|exact E].
Qed.

(** [x] lies in one of the [n] intervals of length [s] *)
Lemma interval_exists (n : nat) s x : 0 < s -> 0 <= x < INR n * s -> exists i, (i < n)%nat /\ INR i * s <= x <= (INR i + 1) * s.
Proof.
  induction n as [|n IH]; intros Hs Hx; [cbn in Hx; lra|]. rewrite S_INR in Hx.
  destruct (Rlt_le_dec x (INR n * s)) as [H|H].
  - destruct (IH Hs ltac:(lra)) as (i & Hi & K). exists i. split; [lia|exact K].
  - exists n. split; [lia|lra].
Qed.
Lemma cos_near h x : 0 <= h <= PI -> Rabs x <= h -> cos h <= cos x.
Proof.
  intros Hh Hx. assert (E : cos x = cos (Rabs x)) by (unfold Rabs; destruct (Rcase_abs x); [rewrite cos_neg|]; reflexivity).
  rewrite E. pose proof (Rabs_pos x) as P. destruct (Rle_lt_or_eq_dec _ _ Hx) as [L| ->]; [left; apply cos_decreasing_1; lra|right; reflexivity].
Qed.

Section Sector.
  Context (a : nat) (Ha : (3 <= a)%nat).
  Let d := 2 * PI / INR a.
  Let h := PI / INR a.
  (** every direction points into one sector *)
  Lemma sector_exists ph : 0 <= ph < 2 * PI -> exists j, (j < a)%nat /\ cos h <= cos (ph - (azi a (nxt a j) - h)).
  Proof.
    intros Hph. pose proof (azi_full a Ha) as F. pose proof (azi_step a Ha) as Hd. pose proof (half_step a Ha) as D. fold d h in F, Hd, D.
    pose proof (half_range a Ha) as [Hh _]. fold h in Hh.
    destruct (interval_exists a d ph ltac:(lra) ltac:(rewrite F; lra)) as (i & Hi & K). exists i. split; [exact Hi|].
    assert (E : cos (ph - (azi a (nxt a i) - h)) = cos (ph - (azi a i + h))).
    { replace (ph - (azi a (nxt a i) - h)) with (ph + h - azi a (nxt a i)) by ring. rewrite cos_minus.
      destruct (azi_nxt a i Ha Hi) as [-> ->]. rewrite <- cos_minus. f_equal. fold d. rewrite D. ring. }
    rewrite E. apply cos_near; [lra|]. unfold azi. fold d. apply Rabs_le. rewrite D in *. lra.
  Qed.
End Sector.

(** ** Facets of the mesh, conversely *)
Lemma good_facet_of M W dbg self {V} (ok : V -> Prop) N tris (pos : V -> vec R 3) m x y z c :
  good_mesh M W dbg self ok N tris pos m -> In (x, y, z) tris -> enclosed m c -> 0 <= sixvol c (pos z) (pos y) (pos x).
Proof.
  intros (_ & _ & _ & _ & _ & _ & _ & _ & _ & _ & _ & Ht & _) Hin He.
  assert (K : In (Some (pos z, pos y, pos x)) (map (facet_triangle m) (m_facets m))).
  { rewrite Ht. apply in_map. unfold solid_triangles. rewrite map_map. apply in_map_iff. exists (x, y, z). split; [reflexivity|exact Hin]. }
  apply in_map_iff in K as (f & E & Hf). destruct (He f Hf) as (q0 & q1 & q2 & E' & B). rewrite E in E'. injection E' as <- <- <-.
  unfold behind in B. rewrite behind_sixvol in B. exact B.
Qed.
Lemma plane_side_conv (c n A B C q : vec R 3) k :
  rdot n (rsub A c) = k -> rdot n (rsub B c) = k -> rdot n (rsub C c) = k -> 0 < k -> 0 < sixvol c A B C ->
  0 <= sixvol q A B C -> rdot n (rsub q c) <= k.
Proof.
  intros HA HB HC Hk Hs Hq. pose proof (plane_value c n A B C q k HA HB HC) as E.
  assert (K : 0 <= sixvol c A B C * (k - rdot n (rsub q c))) by (rewrite <- E; apply Rmult_le_pos; lra).
  assert (0 <= k - rdot n (rsub q c)); [|lra].
  apply Rmult_le_reg_l with (sixvol c A B C); [exact Hs|lra].
Qed.

(** ** The sphere *)
Section Sphere.
  Context (p a : nat) (Hp : (2 <= p)%nat) (Ha : (3 <= a)%nat) (o : vec R 3) (r : R) (Hr : 0 < r).
  Let d := 2 * PI / INR a.
  Let h := PI / INR a.
  Let e := PI / INR p.

  Lemma band_tag b j : (b < p)%nat -> (j < a)%nat -> exists t, tag_ok p a t /\ band p t = b /\ sector t = j.
  Proof.
    intros Hb Hj. destruct (Nat.eq_dec b 0) as [->|H0]; [exists (TT j)|destruct (Nat.eq_dec b (p - 1)) as [->|H1]; [exists (TB j)|exists (BA b j)]];
      (split; [cbn; lia|split; reflexivity]).
  Qed.
  Lemma sphere_inside q : (forall x y z, In (x, y, z) (map (ctri p a) (ctags p a)) -> 0 <= sixvol q (spos p a o r z) (spos p a o r y) (spos p a o r x)) ->
    rdist q o <= r.
  Proof.
    intros H. pose proof PI_RGT_0 as P0.
    assert (N : forall b j, (b < p)%nat -> (j < a)%nat -> rdot (facet_normal p a b j) (rsub q o) <= r * cos (e / 2)).
    { intros b j Hb Hj. destruct (band_tag b j Hb Hj) as (t & Ht & <- & <-).
      destruct (stri_plane p a Hp Ha o r t Ht) as (_ & _ & On).
      pose proof (ctri_rot_sixvol p a o r t q) as K. pose proof (stri_away p a Hp Ha o r Hr t Ht) as Aw.
      assert (Hin : In (ctri p a t) (map (ctri p a) (ctags p a))) by (apply in_map, (ctags_ok p a Hp Ha), Ht).
      destruct (ctri p a t) as [[x y] z], (stri p a t) as [[x' y'] z']. specialize (H x y z Hin). rewrite K in H.
      unfold faces_away in Aw. rewrite behind_sixvol in Aw.
      apply (plane_side_conv o _ (spos p a o r z') (spos p a o r y') (spos p a o r x')); auto.
      apply Rmult_lt_0_compat; [exact Hr|exact (half_polar p a Hp Ha)]. }
    set (v := rsub q o) in *.
    destruct v as (x & y & z & []) eqn:Ev.
    destruct (azimuth_exists x y) as (rho & ph & Hrho & Hph & Ex & Ey & Er).
    destruct (azimuth_exists z rho) as (R & th & HR & Hth & Ez & Erho & ER).
    assert (Hn : rdist q o = R).
    { unfold rdist. fold v. rewrite Ev. unfold rnorm. replace (rdot _ _) with (Rsqr R); [apply sqrt_Rsqr, HR|].
      unfold Rsqr. cbn. rewrite ER, Er. ring. }
    rewrite Hn. destruct (Rle_lt_or_eq_dec 0 R HR) as [HRp|H0]; [|lra].
    assert (Hth2 : th <= PI).
    { destruct (Rle_lt_dec th PI) as [L|L]; [exact L|exfalso]. assert (sin th < 0) by (apply sin_lt_0; lra). nra. }
    pose proof (band_range p a Hp Ha 0 ltac:(lia)) as [_ He]. fold e in He. pose proof (pol_full p Hp) as F. fold e in F.
    assert (exists b, (b < p)%nat /\ INR b * e <= th <= (INR b + 1) * e) as (b & Hb & Kb).
    { destruct (Rlt_le_dec th PI) as [L|L].
      - apply interval_exists; [lra|]. rewrite F. lra.
      - exists (p - 1)%nat. split; [lia|]. rewrite minus_INR by lia. cbn [INR]. nra. }
    destruct (sector_exists a Ha ph Hph) as (j & Hj & Kj). fold h in Kj.
    specialize (N b (nxt a j) Hb (nxt_ok a Ha j Hj)).
    pose proof (band_range p a Hp Ha b Hb) as [Hm _]. fold e in Hm. pose proof (half_polar p a Hp Ha) as Hc2. fold e in Hc2.
    pose proof (half_range a Ha) as [_ Hc]. fold h in Hc.
    assert (V : rdot (facet_normal p a b (nxt a j)) (x, (y, (z, tt))) =
      R * (sin (pol p b + e / 2) * sin th * (cos (ph - (azi a (nxt a j) - h)) / cos h) + cos (pol p b + e / 2) * cos th)).
    { unfold facet_normal. fold h e. rewrite (cos_minus ph). cbn. rewrite Ex, Ey, Erho, Ez. field. lra. }
    pose proof (Rle_trans _ _ _ (Req_le _ _ (eq_sym V)) N) as N'. clear N. rename N' into N. set (Q := cos (ph - (azi a (nxt a j) - h)) / cos h) in *.
    assert (HQ : 1 <= Q).
    { unfold Q. apply Rmult_le_reg_r with (cos h); [exact Hc|]. unfold Rdiv. rewrite Rmult_assoc, Rinv_l by lra. lra. }
    assert (S1 : 0 <= sin (pol p b + e / 2) * sin th) by (apply Rmult_le_pos; apply sin_ge_0; lra).
    assert (L : cos (e / 2) <= cos (pol p b + e / 2 - th)).
    { apply cos_near; [lra|]. unfold pol. fold e. apply Rabs_le. lra. }
    rewrite cos_minus in L.
    pose proof (Rmult_le_compat_l _ _ _ S1 HQ) as S2.
    assert (K : cos (e / 2) <= sin (pol p b + e / 2) * sin th * Q + cos (pol p b + e / 2) * cos th) by lra.
    apply Rmult_le_reg_r with (cos (e / 2)); [exact Hc2|]. eapply Rle_trans; [|exact N]. apply Rmult_le_compat_l; [lra|exact K].
  Qed.
End Sphere.

(** ** Cone and cylinder *)
Section Round.
  Context (a : nat) (Ha : (3 <= a)%nat) (r len : R) (Hr : 0 < r) (Hlen : 0 < len).
  Let h := PI / INR a.

  Lemma cylinder_inside x y z :
    (forall u v w, In (u, v, w) (map (ytri a) (ytags a)) -> 0 <= sixvol (x, (y, (z, tt))) (ypos a r len w) (ypos a r len v) (ypos a r len u)) ->
    0 <= z <= len /\ x * x + y * y <= r * r.
  Proof.
    intros H. pose proof (half_range a Ha) as [_ Hc]. fold h in Hc.
    assert (Hrc : 0 < r * cos h) by (apply Rmult_lt_0_compat; assumption).
    assert (T : forall t, ytag_ok a t -> let '(u, v, w) := ytri a t in
      0 <= sixvol (x, (y, (z, tt))) (ypos a r len w) (ypos a r len v) (ypos a r len u) /\
      0 < sixvol (0, (0, (len / 2, tt))) (ypos a r len w) (ypos a r len v) (ypos a r len u)).
    { intros t Ht. assert (Hin : In (ytri a t) (map (ytri a) (ytags a))) by (apply in_map, ytags_ok, Ht).
      destruct (ytri a t) as [[u v] w]. split; [apply H, Hin|].
      pose proof (ytri_away a Ha r len Hr Hlen (len / 2) u v w ltac:(lra) Hin) as Aw. unfold faces_away in Aw. rewrite behind_sixvol in Aw. exact Aw. }
    assert (Hz : 0 <= z <= len).
    { split.
      - destruct (T (YCB 0) ltac:(cbn; lia)) as [T1 T2]. cbn [ypos] in T1, T2.
        assert (K : rdot ((0, (0, (-1, tt))) : vec R 3) (rsub ((x, (y, (z, tt))) : vec R 3) (0, (0, (len / 2, tt)))) <= (len / 2))
          by (refine (plane_side_conv _ _ _ _ _ _ _ _ _ _ _ T2 T1); unfold cylindrical; cbn; first [lra|field]). cbn in K. lra.
      - destruct (T (YCT 0) ltac:(cbn; lia)) as [T1 T2]. cbn [ypos] in T1, T2.
        assert (K : rdot ((0, (0, (1, tt))) : vec R 3) (rsub ((x, (y, (z, tt))) : vec R 3) (0, (0, (len / 2, tt)))) <= (len / 2))
          by (refine (plane_side_conv _ _ _ _ _ _ _ _ _ _ _ T2 T1); unfold cylindrical; cbn; first [lra|field]). cbn in K. lra. }
    split; [exact Hz|].
    destruct (azimuth_exists x y) as (rho & ph & Hrho & Hph & Ex & Ey & Er). destruct (sector_exists a Ha ph Hph) as (j & Hj & Kj). fold h in Kj.
    destruct (T (YM j) Hj) as [T1 T2]. cbn [ypos] in T1, T2. destruct (nxt_azimuth a Ha j Hj) as [N1 N2]. fold h in N1, N2.
    assert (K : rdot ((side_normal a j 0) : vec R 3) (rsub ((x, (y, (z, tt))) : vec R 3) (0, (0, (len / 2, tt)))) <= (r * cos h))
          by (refine (plane_side_conv _ _ _ _ _ _ _ _ _ _ _ T2 T1); rewrite ?(side_value a r), ?(side_axis a); fold h; rewrite ?N1, ?N2; first [lra|field; lra]).
    assert (V : rdot (side_normal a j 0) (rsub ((x, (y, (z, tt))) : vec R 3) (0, (0, (len / 2, tt)))) = rho * cos (ph - (azi a (nxt a j) - h))).
    { unfold side_normal. fold h. rewrite (cos_minus ph). cbn. rewrite Ex, Ey. ring. }
    rewrite V in K. assert (rho <= r); [|nra]. apply Rmult_le_reg_r with (cos h); [exact Hc|]. nra.
  Qed.

  Lemma cone_inside x y z :
    (forall u v w, In (u, v, w) (map (ktri a) (ktags a)) -> 0 <= sixvol (x, (y, (z, tt))) (kpos a r len w) (kpos a r len v) (kpos a r len u)) ->
    0 <= z <= len /\ x * x + y * y <= (r * (1 - z / len)) * (r * (1 - z / len)).
  Proof.
    intros H. pose proof (half_range a Ha) as [_ Hc]. fold h in Hc.
    assert (Hrc : 0 < r * cos h) by (apply Rmult_lt_0_compat; assumption).
    assert (T : forall t, ktag_ok a t -> let '(u, v, w) := ktri a t in
      0 <= sixvol (x, (y, (z, tt))) (kpos a r len w) (kpos a r len v) (kpos a r len u) /\
      0 < sixvol (0, (0, (len / 2, tt))) (kpos a r len w) (kpos a r len v) (kpos a r len u)).
    { intros t Ht. assert (Hin : In (ktri a t) (map (ktri a) (ktags a))) by (apply in_map, ktags_ok, Ht).
      destruct (ktri a t) as [[u v] w]. split; [apply H, Hin|].
      pose proof (ktri_away a Ha r len Hr (len / 2) u v w ltac:(lra) Hin) as Aw. unfold faces_away in Aw. rewrite behind_sixvol in Aw. exact Aw. }
    assert (Hz : 0 <= z).
    { destruct (T (KB 0) ltac:(cbn; lia)) as [T1 T2]. cbn [kpos] in T1, T2.
      assert (K : rdot ((0, (0, (-1, tt))) : vec R 3) (rsub ((x, (y, (z, tt))) : vec R 3) (0, (0, (len / 2, tt)))) <= (len / 2))
          by (refine (plane_side_conv _ _ _ _ _ _ _ _ _ _ _ T2 T1); unfold cylindrical; cbn; first [lra|field]). cbn in K. lra. }
    destruct (azimuth_exists x y) as (rho & ph & Hrho & Hph & Ex & Ey & Er). destruct (sector_exists a Ha ph Hph) as (j & Hj & Kj). fold h in Kj.
    destruct (T (KM j) Hj) as [T1 T2]. cbn [kpos] in T1, T2. destruct (nxt_azimuth a Ha j Hj) as [N1 N2]. fold h in N1, N2.
    assert (K : rdot ((side_normal a j (r * cos h / len)) : vec R 3) (rsub ((x, (y, (z, tt))) : vec R 3) (0, (0, (len / 2, tt)))) <= (r * cos h / 2))
          by (refine (plane_side_conv _ _ _ _ _ _ _ _ _ _ _ T2 T1); rewrite ?(side_value a r), ?(side_axis a); fold h; rewrite ?N1, ?N2; first [lra|field; lra]).
    assert (V : rdot (side_normal a j (r * cos h / len)) (rsub ((x, (y, (z, tt))) : vec R 3) (0, (0, (len / 2, tt)))) =
      rho * cos (ph - (azi a (nxt a j) - h)) + r * cos h * (z / len) - r * cos h / 2).
    { unfold side_normal. fold h. rewrite (cos_minus ph). cbn. rewrite Ex, Ey. field. lra. }
    rewrite V in K.
    assert (B : rho <= r * (1 - z / len)).
    { apply Rmult_le_reg_r with (cos h); [exact Hc|]. pose proof (Rmult_le_compat_l _ _ _ Hrho Kj). lra. }
    assert (Z1 : z / len <= 1) by nra.
    split; [split; [exact Hz|]|].
    - replace z with (z / len * len) by (field; lra). nra.
    - rewrite <- Er. apply Rmult_le_compat; assumption.
  Qed.
End Round.

(** ** The cuboid *)
Lemma cuboid_coordinates (o x y z q : vec R 3) : rdot (rcross x y) z <> 0 -> exists a b c, q = cuboid_point o x y z a b c.
Proof.
  intros H. exists (rdot (rcross (rsub q o) y) z / rdot (rcross x y) z), (rdot (rcross x (rsub q o)) z / rdot (rcross x y) z),
    (rdot (rcross x y) (rsub q o) / rdot (rcross x y) z).
  set (D := rdot (rcross x y) z) in *. unfold cuboid_point.
  destruct o as (o1 & o2 & o3 & []), x as (x1 & x2 & x3 & []), y as (y1 & y2 & y3 & []), z as (z1 & z2 & z3 & []), q as (q1 & q2 & q3 & []).
  cbn in D |- *. repeat (apply f_equal2; [unfold D in H |- *; field; intros K; apply H; etransitivity; [|exact K]; ring|]). reflexivity.
Qed.

Lemma btri_each o x y z a b c : forall w, In w [a; 1 - a; b; 1 - b; c; 1 - c] -> exists i j k, In (i, j, k) btris /\
  sixvol (cuboid_point o x y z a b c) (bpos o x y z k) (bpos o x y z j) (bpos o x y z i) = w * rdot (rcross x y) z.
Proof.
  intros w Hw.
  destruct o as (o1 & o2 & o3 & []), x as (x1 & x2 & x3 & []), y as (y1 & y2 & y3 & []), z as (z1 & z2 & z3 & []).
  assert (K : exists t, In t btris /\ let '(i, j, k) := t in
    sixvol (cuboid_point (o1, (o2, (o3, tt))) (x1, (x2, (x3, tt))) (y1, (y2, (y3, tt))) (z1, (z2, (z3, tt))) a b c)
      (bpos (o1, (o2, (o3, tt))) (x1, (x2, (x3, tt))) (y1, (y2, (y3, tt))) (z1, (z2, (z3, tt))) k)
      (bpos (o1, (o2, (o3, tt))) (x1, (x2, (x3, tt))) (y1, (y2, (y3, tt))) (z1, (z2, (z3, tt))) j)
      (bpos (o1, (o2, (o3, tt))) (x1, (x2, (x3, tt))) (y1, (y2, (y3, tt))) (z1, (z2, (z3, tt))) i) =
    w * rdot (rcross (x1, (x2, (x3, tt))) (y1, (y2, (y3, tt)))) (z1, (z2, (z3, tt)))).
  { unfold btris. cbn [map rev3 In] in *.
    repeat (destruct Hw as [<-|Hw]; [first
      [eexists; split; [do 0 right; left; reflexivity|unfold bpos, bit, sixvol, cuboid_point; cbn; ring]
      |eexists; split; [do 2 right; left; reflexivity|unfold bpos, bit, sixvol, cuboid_point; cbn; ring]
      |eexists; split; [do 4 right; left; reflexivity|unfold bpos, bit, sixvol, cuboid_point; cbn; ring]
      |eexists; split; [do 6 right; left; reflexivity|unfold bpos, bit, sixvol, cuboid_point; cbn; ring]
      |eexists; split; [do 8 right; left; reflexivity|unfold bpos, bit, sixvol, cuboid_point; cbn; ring]
      |eexists; split; [do 10 right; left; reflexivity|unfold bpos, bit, sixvol, cuboid_point; cbn; ring]]|]).
    contradiction. }
  destruct K as ([[i j] k] & K). exists i, j, k. exact K.
Qed.

(** ** Placement *)
Lemma linear_surj (A : vec (vec R 3) 3) t q : rigid (affine A rzero) -> 0 < det3 A -> exists l, q = affine A t l.
Proof.
  intros HA Hd. set (D := det3 A) in *.
  (* Cramer's rule *)
  destruct A as ((x1 & x2 & x3 & []) & (y1 & y2 & y3 & []) & (z1 & z2 & z3 & []) & []).
  destruct t as (t1 & t2 & t3 & []), q as (q1 & q2 & q3 & []). cbn in D.
  set (u := q1 - t1). set (v := q2 - t2). set (w := q3 - t3).
  exists ((u * (y2 * z3 - y3 * z2) - x2 * (v * z3 - y3 * w) + x3 * (v * z2 - y2 * w)) / D,
         ((x1 * (v * z3 - y3 * w) - u * (y1 * z3 - y3 * z1) + x3 * (y1 * w - v * z1)) / D,
         ((x1 * (y2 * w - v * z2) - x2 * (y1 * w - v * z1) + u * (y1 * z2 - y2 * z1)) / D, tt))).
  assert (HD : D <> 0) by lra. clear Hd HA. unfold D, u, v, w in *. unfold affine. cbn. repeat (apply f_equal2; [field; intros K; apply HD; etransitivity; [|exact K]; ring|]). reflexivity.
Qed.

Lemma rsub_along (s t : vec R 3) : rsub t s = rsub (along s (rsub t s) 1) (along s (rsub t s) 0).
Proof. unfold along. v3. cbn. repeat (apply f_equal2; [ring|]). reflexivity. Qed.

Section Axis.
  Context (M : R) (s : segment (RS M) 3) (A : vec (vec R 3) 3).
  Let src : vec R 3 := g_source s.
  Let tgt : vec R 3 := g_target s.
  Let len := rdist tgt src.
  Context (HA : rotation_onto A (@segment_direction (RS M) 3 s)) (Hlen : 0 < len).

  Lemma axis_local u : along src (rsub tgt src) u = affine A src (0, (0, (u * len, tt))).
  Proof. rewrite (axis_point M s A HA). f_equal. unfold len, src, tgt. field. unfold len, src, tgt in Hlen. lra. Qed.
  Lemma axis_offset x y z u :
    rdot (rsub (affine A src (x, (y, (z, tt)))) (along src (rsub tgt src) u)) (rsub tgt src) = (z - u * len) * len /\
    rdist (affine A src (x, (y, (u * len, tt)))) (along src (rsub tgt src) u) = sqrt (x * x + y * y).
  Proof.
    destruct HA as (Hrig & _ & _). rewrite !axis_local. split.
    - assert (E : rsub tgt src = rsub (affine A src (0, (0, (1 * len, tt)))) (affine A src (0, (0, (0 * len, tt))))).
      { rewrite <- !axis_local. apply rsub_along. }
      rewrite E, !affine_sub, <- (affine_sub A rzero), <- (affine_sub A rzero).
      rewrite (rigid_dot (affine A rzero)) by exact Hrig. cbn. ring.
    - rewrite (rigid_shift A src Hrig). unfold rdist, rnorm. f_equal. cbn. ring.
  Qed.

  Lemma solid_cylinder_local rho x y z : 0 <= rho ->
    solid_cylinder src tgt rho (affine A src (x, (y, (z, tt)))) <-> 0 <= z <= len /\ x * x + y * y <= rho * rho.
  Proof.
    intros Hrho. assert (K : forall b, 0 <= b -> sqrt (x * x + y * y) <= b <-> x * x + y * y <= b * b).
    { intros b Hb. assert (Q : 0 <= x * x + y * y) by nra. split; intros H.
      - pose proof (sqrt_def _ Q) as D. pose proof (sqrt_pos (x * x + y * y)). nra.
      - rewrite <- (sqrt_square b) by exact Hb. apply sqrt_le_1_alt, H. }
    split.
    - intros (u & Hu & H1 & H2). destruct (axis_offset x y z u) as [E1 E2]. rewrite E1 in H1.
      assert (z = u * len) by (apply Rmult_integral in H1; lra). subst z. rewrite E2 in H2. split; [nra|apply K; assumption].
    - intros [Hz H]. exists (z / len). assert (E : z = z / len * len) by (field; lra).
      destruct (axis_offset x y z (z / len)) as [E1 E2]. rewrite <- E in E1, E2. split; [|split].
      + split; [apply Rmult_le_pos; [lra|left; apply Rinv_0_lt_compat, Hlen]|]. apply Rmult_le_reg_r with len; [exact Hlen|]. rewrite <- E. lra.
      + rewrite E1. ring.
      + rewrite E2. apply K; assumption.
  Qed.
  Lemma solid_cone_local rho x y z : 0 <= rho ->
    solid_cone src tgt rho (affine A src (x, (y, (z, tt)))) <-> 0 <= z <= len /\ x * x + y * y <= (rho * (1 - z / len)) * (rho * (1 - z / len)).
  Proof.
    intros Hrho. assert (K : forall b, 0 <= b -> sqrt (x * x + y * y) <= b <-> x * x + y * y <= b * b).
    { intros b Hb. assert (Q : 0 <= x * x + y * y) by nra. split; intros H.
      - pose proof (sqrt_def _ Q) as D. pose proof (sqrt_pos (x * x + y * y)). nra.
      - rewrite <- (sqrt_square b) by exact Hb. apply sqrt_le_1_alt, H. }
    split.
    - intros (u & Hu & H1 & H2). destruct (axis_offset x y z u) as [E1 E2]. rewrite E1 in H1.
      assert (z = u * len) by (apply Rmult_integral in H1; lra). subst z. rewrite E2 in H2. split; [nra|].
      replace (u * len / len) with u by (field; lra). apply K; [apply Rmult_le_pos; lra|assumption].
    - intros [Hz H]. exists (z / len). assert (E : z = z / len * len) by (field; lra).
      destruct (axis_offset x y z (z / len)) as [E1 E2]. rewrite <- E in E1, E2.
      assert (B : 0 <= z / len <= 1).
      { split; [apply Rmult_le_pos; [lra|left; apply Rinv_0_lt_compat, Hlen]|]. apply Rmult_le_reg_r with len; [exact Hlen|]. rewrite <- E. lra. }
      split; [exact B|split].
      + rewrite E1. ring.
      + rewrite E2. apply K; [apply Rmult_le_pos; lra|assumption].
  Qed.
End Axis.
