(** * The tessellations are convex *)

From Coq Require Import List Arith Bool Lia Reals Lra.
From Verif Require Import Scalar Linal Result SpecReal VecR VecLemmas ModelShapes ModelTransform SpecTransform
  ProofTransform ModelMesh SpecMesh ProofMeshNormal ModelTess SpecTess SpecConvex ProofTessComb ProofTessConn ProofTessMesh ProofTessSphere ProofTessRound
  ProofTess ProofTessCuboid ProofVolume.
Import ListNotations.
Local Open Scope R_scope.

Lemma behind_sixvol q0 q1 q2 c : rdot (rcross (rsub q1 q0) (rsub q2 q0)) (rsub q0 c) = sixvol c q0 q1 q2.
Proof. unfold sixvol. v3. ring. Qed.

(** a plane that bounds a half space with [q] *)
Lemma plane_value (c n A B C q : vec R 3) k :
  rdot n (rsub A c) = k -> rdot n (rsub B c) = k -> rdot n (rsub C c) = k ->
  k * sixvol q A B C = sixvol c A B C * (k - rdot n (rsub q c)).
Proof.
  intros HA HB HC.
  assert (E : sixvol q A B C = sixvol c A B C - (rdot (rsub q c) (rcross (rsub B c) (rsub C c)) +
    rdot (rsub q c) (rcross (rsub C c) (rsub A c)) + rdot (rsub q c) (rcross (rsub A c) (rsub B c)))).
  { unfold sixvol. clear. v3. ring. }
  assert (F : sixvol c A B C * rdot n (rsub q c) = rdot n (rsub A c) * rdot (rsub q c) (rcross (rsub B c) (rsub C c)) +
    rdot n (rsub B c) * rdot (rsub q c) (rcross (rsub C c) (rsub A c)) + rdot n (rsub C c) * rdot (rsub q c) (rcross (rsub A c) (rsub B c))).
  { unfold sixvol. clear. generalize (rsub A c), (rsub B c), (rsub C c), (rsub q c). intros. v3. ring. }
  rewrite HA, HB, HC in F. rewrite E. nra.
Qed.
Lemma plane_side (c n A B C q : vec R 3) k :
  rdot n (rsub A c) = k -> rdot n (rsub B c) = k -> rdot n (rsub C c) = k -> 0 < k -> 0 < sixvol c A B C ->
  rdot n (rsub q c) <= k -> 0 <= sixvol q A B C.
Proof.
  intros HA HB HC Hk Hs Hq. pose proof (plane_value c n A B C q k HA HB HC) as E.
  assert (0 <= sixvol c A B C * (k - rdot n (rsub q c))) by (apply Rmult_le_pos; lra).
  apply Rmult_le_reg_l with k; [exact Hk|]. lra.
Qed.

(** ** The mesh *)
Lemma good_facets M W dbg self {V} (ok : V -> Prop) N tris (pos : V -> vec R 3) m (P : vec R 3 -> vec R 3 -> vec R 3 -> Prop) :
  good_mesh M W dbg self ok N tris pos m ->
  (forall x y z, In (x, y, z) tris -> P (pos z) (pos y) (pos x)) ->
  forall f, In f (m_facets m) -> exists q0 q1 q2, facet_triangle m f = Some (q0, q1, q2) /\ P q0 q1 q2.
Proof.
  intros (_ & _ & _ & _ & _ & _ & _ & _ & _ & _ & _ & Ht & _) H f Hf.
  apply (in_map (facet_triangle m)) in Hf. rewrite Ht in Hf. apply in_map_iff in Hf as (t & E & Hin).
  unfold solid_triangles in Hin. rewrite map_map in Hin. apply in_map_iff in Hin as ([[x y] z] & <- & Hin).
  exists (pos z), (pos y), (pos x). split; [symmetry; exact E|apply H, Hin].
Qed.

(** ** Angles *)
Lemma cos_outside h x : 0 <= h <= PI -> h <= Rabs x <= 2 * PI - h -> cos x <= cos h.
Proof.
  intros Hh Hx. assert (E : cos x = cos (Rabs x)) by (unfold Rabs; destruct (Rcase_abs x); [rewrite cos_neg|]; reflexivity).
  rewrite E. generalize dependent (Rabs x). intros y Hy _. destruct (Rle_lt_dec y PI) as [H|H].
  - destruct (Rle_lt_or_eq_dec h y (proj1 Hy)) as [L| ->]; [left; apply cos_decreasing_1; lra|right; reflexivity].
  - replace (cos y) with (cos (2 * PI - y)) by (rewrite cos_minus, cos_2PI, sin_2PI; ring).
    destruct (Rle_lt_or_eq_dec h (2 * PI - y) ltac:(lra)) as [L|L]; [left; apply cos_decreasing_1; lra|right; rewrite L; reflexivity].
Qed.
Lemma odd_gap (i j : nat) : 1 / 2 <= Rabs (INR i - INR j + 1 / 2).
Proof.
  destruct (le_lt_dec j i) as [H|H].
  - apply le_INR in H. rewrite Rabs_pos_eq; lra.
  - assert (K : INR i + 1 <= INR j) by (rewrite <- S_INR; apply le_INR; lia). rewrite Rabs_left1; lra.
Qed.

Section Sector.
  Context (a : nat) (Ha : (3 <= a)%nat).
  Let d := 2 * PI / INR a.
  Let h := PI / INR a.

  Lemma half_step : d = 2 * h.
  Proof. unfold d, h. field. pose proof (INR_a a Ha). lra. Qed.
  Lemma half_range : 0 < h < PI / 2 /\ 0 < cos h.
  Proof.
    pose proof (INR_a a Ha). pose proof PI_RGT_0.
    assert (0 < h < PI / 2).
    { unfold h. split; [apply Rdiv_lt_0_compat; lra|]. unfold Rdiv. apply Rmult_lt_compat_l; [lra|]. apply Rinv_lt_contravar; lra. }
    split; [lra|]. apply cos_gt_0; lra.
  Qed.
  (** no vertex reaches beyond the middle of a side *)
  Lemma cos_sector i j : (i < a)%nat -> (j < a)%nat -> cos (azi a i - (azi a j - h)) <= cos h.
  Proof.
    intros Hi Hj. pose proof half_range as [Hh _]. apply cos_outside; [lra|].
    replace (azi a i - (azi a j - h)) with (2 * h * (INR i - INR j + 1 / 2)) by (unfold azi; fold d; rewrite half_step; field).
    rewrite Rabs_mult, (Rabs_pos_eq (2 * h)) by lra. pose proof (odd_gap i j) as G. split; [nra|].
    assert (F : INR a * (2 * h) = 2 * PI) by (rewrite <- half_step; apply azi_full, Ha).
    assert (U : Rabs (INR i - INR j + 1 / 2) <= INR a - 1 / 2).
    { apply lt_INR in Hi, Hj. pose proof (pos_INR i). pose proof (pos_INR j).
      assert (INR i <= INR a - 1 /\ INR j <= INR a - 1).
      { split; [apply INR_lt in Hi|apply INR_lt in Hj]; [assert (K : (i <= a - 1)%nat) by lia|assert (K : (j <= a - 1)%nat) by lia];
          apply le_INR in K; rewrite minus_INR in K by lia; cbn in K; lra. }
      unfold Rabs. destruct (Rcase_abs _); lra. }
    nra.
  Qed.
End Sector.

(** ** The sphere *)
Section Sphere.
  Context (p a : nat) (Hp : (2 <= p)%nat) (Ha : (3 <= a)%nat) (o : vec R 3) (r : R) (Hr : 0 < r).
  Let d := 2 * PI / INR a.
  Let h := PI / INR a.
  Let e := PI / INR p.

  Definition band (t : stag) : nat := match t with TT _ => 0 | TB _ => p - 1 | BA i _ | BB i _ => i end.
  Definition sector (t : stag) : nat := match t with TT j | TB j | BA _ j | BB _ j => j end.
  (** a normal of the facets of a band in a sector *)
  Definition facet_normal (b j : nat) : vec R 3 :=
    let mu := pol p b + e / 2 in let ph := azi a j - h in
    (sin mu / cos h * cos ph, (sin mu / cos h * sin ph, (cos mu, tt))).

  Lemma normal_value b j th ph :
    rdot (facet_normal b j) (rsub (polar o r th ph) o) =
    r * (sin (pol p b + e / 2) * sin th * (cos (ph - (azi a j - h)) / cos h) + cos (pol p b + e / 2) * cos th).
  Proof.
    pose proof (proj2 (half_range a Ha)) as Hc. fold h in Hc. unfold facet_normal, polar. rewrite (cos_minus ph).
    destruct o as (x & y & z & []). cbn. field. lra.
  Qed.
  Lemma band_range b : (b < p)%nat -> 0 < pol p b + e / 2 < PI /\ 0 < e <= PI / 2.
  Proof.
    intros Hb. pose proof (pol_step p Hp) as He. pose proof (pol_full p Hp) as F. fold e in He, F.
    assert (K : INR b <= INR p - 1) by (replace (INR p - 1) with (INR (p - 1)) by (rewrite minus_INR by lia; cbn; ring); apply le_INR; lia).
    pose proof (pos_INR b). pose proof (INR_p p Hp). unfold pol. fold e. split; [split; nra|split; [lra|nra]].
  Qed.

  (** the corners of the facet *)
  Lemma normal_on b j th ph : (b < p)%nat -> (th = pol p b \/ th = pol p (b + 1)) -> (ph = azi a j \/ ph = azi a j - d) ->
    rdot (facet_normal b j) (rsub (polar o r th ph) o) = r * cos (e / 2).
  Proof.
    intros Hb Ht Hph. rewrite normal_value. pose proof (proj2 (half_range a Ha)) as Hc. fold h in Hc.
    assert (E : cos (ph - (azi a j - h)) / cos h = 1).
    { pose proof (half_step a Ha) as D. fold d h in D. destruct Hph as [-> | ->].
      - replace (azi a j - (azi a j - h)) with h by ring. field. lra.
      - rewrite D. replace (azi a j - 2 * h - (azi a j - h)) with (- h) by ring. rewrite cos_neg. field. lra. }
    rewrite E. f_equal. transitivity (cos (pol p b + e / 2 - th)); [rewrite cos_minus; ring|].
    assert (K : pol p (b + 1) = pol p b + e) by (unfold pol, e; rewrite plus_INR; cbn; ring).
    destruct Ht as [-> | ->]; [f_equal; ring|]. rewrite K. replace (pol p b + e / 2 - (pol p b + e)) with (- (e / 2)) by field. apply cos_neg.
  Qed.
  (** every other vertex *)
  Lemma normal_below b j i k : (b < p)%nat -> (j < a)%nat -> (i <= p)%nat -> (k < a)%nat ->
    rdot (facet_normal b j) (rsub (polar o r (pol p i) (azi a k)) o) <= r * cos (e / 2).
  Proof.
    intros Hb Hj Hi Hk. rewrite normal_value. pose proof (half_range a Ha) as [Hh Hc]. fold h in Hh, Hc.
    pose proof (band_range b Hb) as [Hm He]. pose proof (pol_full p Hp) as F. fold e in F.
    assert (Hs : 0 <= sin (pol p i)).
    { apply le_INR in Hi. pose proof (pos_INR i). apply sin_ge_0; unfold pol; fold e; nra. }
    pose proof (sin_gt_0 _ (proj1 Hm) (proj2 Hm)) as Sm.
    assert (C1 : cos (azi a k - (azi a j - h)) / cos h <= 1).
    { apply Rmult_le_reg_r with (cos h); [exact Hc|]. unfold Rdiv. rewrite Rmult_assoc, Rinv_l, Rmult_1_r, Rmult_1_l by lra.
      apply (cos_sector a Ha k j Hk Hj). }
    apply Rmult_le_compat_l; [lra|].
    apply Rle_trans with (cos (pol p i - (pol p b + e / 2))).
    - rewrite (cos_minus (pol p i)). assert (X : 0 <= sin (pol p b + e / 2) * sin (pol p i)) by (apply Rmult_le_pos; lra).
      pose proof (Rmult_le_compat_l _ _ _ X C1) as Y. revert Y. generalize (cos (azi a k - (azi a j - h)) / cos h). intros Q Y. lra.
    - apply cos_outside; [lra|]. pose proof (odd_gap b i) as G.
      replace (pol p i - (pol p b + e / 2)) with (- (e * (INR b - INR i + 1 / 2))) by (unfold pol; fold e; field).
      rewrite Rabs_Ropp, Rabs_mult, (Rabs_pos_eq e) by lra. split; [nra|].
      assert (U : Rabs (INR b - INR i + 1 / 2) <= INR p).
      { apply lt_INR in Hb. apply le_INR in Hi. pose proof (pos_INR b). pose proof (pos_INR i). unfold Rabs. destruct (Rcase_abs _); [lra|].
        apply INR_lt in Hb. assert (K : (b <= p - 1)%nat) by lia. apply le_INR in K. rewrite minus_INR in K by lia. cbn in K. lra. }
      nra.
  Qed.

  Lemma ctri_rot_sixvol t c : let '(x, y, z) := ctri p a t in let '(x', y', z') := stri p a t in
    sixvol c (spos p a o r z) (spos p a o r y) (spos p a o r x) = sixvol c (spos p a o r z') (spos p a o r y') (spos p a o r x').
  Proof.
    destruct t as [[|j]|[|j]|i [|j]|i [|j]]; cbn [ctri stri]; unfold prv; cbn [Nat.eqb];
      solve [reflexivity | rewrite sixvol_rot; reflexivity | rewrite sixvol_rot, sixvol_rot; reflexivity].
  Qed.

  Lemma stri_plane t : tag_ok p a t -> (band t < p)%nat /\ (sector t < a)%nat /\
    (forall v, (let '(x, y, z) := stri p a t in v = x \/ v = y \/ v = z) -> rdot (facet_normal (band t) (sector t)) (rsub (spos p a o r v) o) = r * cos (e / 2)).
  Proof.
    assert (Pv : forall i j, (j < a)%nat -> spos p a o r (Ring i (prv a j)) = polar o r (pol p (i + 1)) (azi a j - d)).
    { intros i j Hj. cbn [spos]. unfold polar. destruct (azi_prv a Ha j Hj) as [-> ->]. reflexivity. }
    assert (Rv : forall i j, spos p a o r (Ring i j) = polar o r (pol p (i + 1)) (azi a j)) by reflexivity.
    assert (Tp : forall ph, spos p a o r Top = polar o r (pol p 0) ph).
    { intros ph. cbn [spos]. unfold polar, pol. cbn [INR]. rewrite Rmult_0_l, sin_0, !Rmult_0_l. reflexivity. }
    assert (Bt : forall ph, spos p a o r Bot = polar o r (pol p (p - 1 + 1)) ph).
    { intros ph. replace (p - 1 + 1)%nat with p by lia. cbn [spos]. unfold polar, pol. rewrite (pol_full p Hp), sin_PI, !Rmult_0_l. reflexivity. }
    intros Ht.
    assert (B : (band t < p)%nat /\ (sector t < a)%nat) by (destruct t; cbn in *; lia).
    split; [apply B|]. split; [apply B|]. destruct B as [Bb Bs]. intros v Hv.
    assert (K : exists th ph, spos p a o r v = polar o r th ph /\ (th = pol p (band t) \/ th = pol p (band t + 1)) /\
      (ph = azi a (sector t) \/ ph = azi a (sector t) - d)).
    { destruct t as [j|j|i j|i j]; cbn [tag_ok stri band sector] in *; destruct Hv as [->|[->| ->]];
        first [rewrite (Tp (azi a j))|rewrite (Bt (azi a j))|rewrite Pv by lia|rewrite Rv]; eexists; eexists; (split; [reflexivity|]);
        (split; [|solve [auto]]); first [left; reflexivity|right; reflexivity|left; f_equal; lia|right; f_equal; lia]. }
    destruct K as (th & ph & -> & K1 & K2). apply normal_on; assumption.
  Qed.

  Lemma half_polar : 0 < cos (e / 2).
  Proof. pose proof (band_range 0 ltac:(lia)) as [_ He]. pose proof PI_RGT_0. apply cos_gt_0; lra. Qed.

  Lemma sphere_side q x y z : In (x, y, z) (map (ctri p a) (ctags p a)) ->
    (forall b j, (b < p)%nat -> (j < a)%nat -> rdot (facet_normal b j) (rsub q o) <= r * cos (e / 2)) ->
    0 <= sixvol q (spos p a o r z) (spos p a o r y) (spos p a o r x).
  Proof.
    intros Hin Hq. apply in_map_iff in Hin as (t & E & Ht). apply (ctags_ok p a Hp Ha) in Ht.
    pose proof (ctri_rot_sixvol t q) as K. rewrite E in K. destruct (stri p a t) as [[x' y'] z'] eqn:E'. rewrite K.
    destruct (stri_plane t Ht) as (Bb & Bs & On). rewrite E' in On.
    pose proof (stri_away p a Hp Ha o r Hr t Ht) as Aw. rewrite E' in Aw. unfold faces_away in Aw. rewrite behind_sixvol in Aw.
    apply (plane_side o (facet_normal (band t) (sector t)) _ _ _ q (r * cos (e / 2))); auto.
    apply Rmult_lt_0_compat; [exact Hr|exact half_polar].
  Qed.

  Lemma sphere_vertex_side v x y z : sv_ok p a v -> In (x, y, z) (map (ctri p a) (ctags p a)) ->
    0 <= sixvol (spos p a o r v) (spos p a o r z) (spos p a o r y) (spos p a o r x).
  Proof.
    intros Hv Hin. apply sphere_side; [exact Hin|]. intros b j Hb Hj.
    destruct (proj2 (spos_grid p a Hp Ha o r (spos p a o r v)) (ex_intro _ v (conj Hv eq_refl))) as (i & k & Hi & Hk & ->).
    apply (normal_below b j i k); assumption.
  Qed.

  Lemma sphere_ball_side q x y z : rdist q o <= r * cos (e / 2) * cos h -> In (x, y, z) (map (ctri p a) (ctags p a)) ->
    0 <= sixvol q (spos p a o r z) (spos p a o r y) (spos p a o r x).
  Proof.
    intros Hq Hin. apply sphere_side; [exact Hin|]. intros b j Hb Hj.
    pose proof (half_range a Ha) as [Hh Hc]. fold h in Hh, Hc. pose proof half_polar as Hp2.
    eapply Rle_trans; [apply Rle_abs|]. eapply Rle_trans; [apply cauchy_schwarz|].
    assert (N : rnorm (facet_normal b j) <= / cos h).
    { unfold rnorm. rewrite <- (sqrt_Rsqr (/ cos h)) by (left; apply Rinv_0_lt_compat, Hc). apply sqrt_le_1_alt.
      unfold facet_normal. cbn. set (mu := pol p b + e / 2). set (ph := azi a j - h).
      pose proof (sin2_cos2 mu) as S1. pose proof (sin2_cos2 ph) as S2. unfold Rsqr in *.
      assert (C1 : 1 <= / cos h * / cos h).
      { assert (1 <= / cos h) by (rewrite <- Rinv_1; apply Rinv_le_contravar; [exact Hc|apply COS_bound]). nra. }
      apply Rle_trans with (sin mu * sin mu * (/ cos h * / cos h) * (sin ph * sin ph + cos ph * cos ph) + cos mu * cos mu); [right; unfold Rdiv; ring|].
      rewrite S2. pose proof (Rle_0_sqr (cos mu)) as Q. unfold Rsqr in Q. nra. }
    unfold rdist in Hq. pose proof (rnorm_nonneg (facet_normal b j)). pose proof (rnorm_nonneg (rsub q o)).
    apply Rle_trans with (/ cos h * (r * cos (e / 2) * cos h)); [apply Rmult_le_compat; assumption|right; field; lra].
  Qed.
End Sphere.

(** ** Cone and cylinder *)
Lemma sixvol_affine A t c q0 q1 q2 : sixvol (affine A t c) (affine A t q0) (affine A t q1) (affine A t q2) = det3 A * sixvol c q0 q1 q2.
Proof.
  unfold sixvol. rewrite !affine_sub. generalize (rsub q0 c), (rsub q1 c), (rsub q2 c). intros u v w. unfold det3.
  destruct A as (a1 & a2 & a3 & []). v3. cbn. ring.
Qed.

(** the component towards the azimuth [ph] is at most the distance from the axis *)
Lemma radial_le x y ph rho : 0 <= rho -> x * x + y * y <= rho * rho -> x * cos ph + y * sin ph <= rho.
Proof.
  intros Hr H. pose proof (sin2_cos2 ph) as K. unfold Rsqr in K.
  destruct (Rle_lt_dec (x * cos ph + y * sin ph) 0) as [L|L]; [lra|].
  apply Rsqr_incr_0_var; [|exact Hr]. unfold Rsqr.
  pose proof (Rle_0_sqr (x * sin ph - y * cos ph)) as Q. unfold Rsqr in Q.
  apply Rle_trans with ((x * x + y * y) * (sin ph * sin ph + cos ph * cos ph)); [nra|rewrite K; lra].
Qed.

Section Round.
  Context (a : nat) (Ha : (3 <= a)%nat) (r len : R) (Hr : 0 < r) (Hlen : 0 < len).
  Let d := 2 * PI / INR a.
  Let h := PI / INR a.

  Lemma nxt_azimuth j : (j < a)%nat -> let ph := azi a (nxt a j) - h in
    cos (azi a j - ph) = cos h /\ cos (azi a (nxt a j) - ph) = cos h.
  Proof.
    intros Hj. cbv zeta. split; [|f_equal; ring].
    pose proof (half_step a Ha) as D. fold d h in D.
    replace (azi a j - (azi a (nxt a j) - h)) with (azi a j + h - azi a (nxt a j)) by ring.
    rewrite cos_minus. destruct (azi_nxt a j Ha Hj) as [-> ->]. rewrite <- cos_minus. fold d. rewrite D.
    replace (azi a j + h - (azi a j + 2 * h)) with (- h) by ring. apply cos_neg.
  Qed.
  Lemma nxt_ok j : (j < a)%nat -> (nxt a j < a)%nat.
  Proof. intros H. unfold nxt. destruct (Nat.eqb_spec j (a - 1)); lia. Qed.

  (** towards the middle of the side from [j] to its successor *)
  Definition side_normal (j : nat) (w : R) : vec R 3 :=
    let ph := azi a (nxt a j) - h in (cos ph, (sin ph, (w, tt))).
  Lemma side_value j w c ph z : rdot (side_normal j w) (rsub (cylindrical r ph z) (0, (0, (c, tt)))) =
    r * cos (ph - (azi a (nxt a j) - h)) + w * (z - c).
  Proof. unfold side_normal, cylindrical. rewrite (cos_minus ph). cbn. ring. Qed.
  Lemma side_axis j w (c z : R) : rdot (side_normal j w) (rsub ((0, (0, (z, tt))) : vec R 3) (0, (0, (c, tt)))) = w * (z - c).
  Proof. unfold side_normal. cbn. ring. Qed.

  (** what lies within the cone over the inscribed circle of the polygon *)
  Definition in_cone (q : vec R 3) : Prop :=
    let '(x, (y, (z, _))) := q in 0 <= z <= len /\ x * x + y * y <= (r * cos h * (1 - z / len)) * (r * cos h * (1 - z / len)).
  Definition in_cylinder (q : vec R 3) : Prop :=
    let '(x, (y, (z, _))) := q in 0 <= z <= len /\ x * x + y * y <= (r * cos h) * (r * cos h).

  Lemma cone_side (q : vec R 3) x y z : In (x, y, z) (map (ktri a) (ktags a)) ->
    (let '(_, (_, (zq, _))) := q in 0 <= zq) ->
    (forall j, (j < a)%nat -> rdot (side_normal j (r * cos h / len)) q <= r * cos h) ->
    0 <= sixvol q (kpos a r len z) (kpos a r len y) (kpos a r len x).
  Proof.
    intros Hin Hz Hs. pose proof (half_range a Ha) as [_ Hc]. fold h in Hc.
    assert (Hrc : 0 < r * cos h) by (apply Rmult_lt_0_compat; assumption).
    pose proof (ktri_away a Ha r len Hr (len / 2) x y z ltac:(lra) Hin) as Aw. unfold faces_away in Aw. rewrite behind_sixvol in Aw.
    apply in_map_iff in Hin as (t & E & Ht). apply ktags_ok in Ht. destruct t as [j|j]; cbn [ktri ktag_ok] in E, Ht; injection E as <- <- <-; cbn [kpos] in *.
    - apply (plane_side (0, (0, (len / 2, tt))) (0, (0, (-1, tt))) _ _ _ q (len / 2)); try exact Aw; try lra; unfold cylindrical; cbn; try field.
      destruct q as (xq & yq & zq & []). cbn. lra.
    - apply (plane_side (0, (0, (len / 2, tt))) (side_normal j (r * cos h / len)) _ _ _ q (r * cos h / 2)); try exact Aw; try lra.
      + rewrite side_value. destruct (nxt_azimuth j Ht) as [-> _]. field. lra.
      + rewrite side_value. destruct (nxt_azimuth j Ht) as [_ ->]. field. lra.
      + rewrite side_axis. field. lra.
      + specialize (Hs j Ht). replace (rdot _ (rsub q _)) with (rdot (side_normal j (r * cos h / len)) q - r * cos h / 2); [lra|].
        destruct q as (xq & yq & zq & []). unfold side_normal. cbn. field. lra.
  Qed.
  Lemma cone_vertex_side v x y z : kv_ok a v -> In (x, y, z) (map (ktri a) (ktags a)) ->
    0 <= sixvol (kpos a r len v) (kpos a r len z) (kpos a r len y) (kpos a r len x).
  Proof.
    intros Hv Hin. pose proof (half_range a Ha) as [_ Hc]. fold h in Hc.
    assert (Hrc : 0 < r * cos h) by (apply Rmult_lt_0_compat; assumption).
    apply cone_side; [exact Hin| |].
    - destruct v; cbn; lra.
    - intros j Hj. assert (Z : forall q : vec R 3, rdot (side_normal j (r * cos h / len)) q = rdot (side_normal j (r * cos h / len)) (rsub q (0, (0, (0, tt))))).
      { intros q. destruct q as (xq & yq & zq & []). unfold side_normal. cbn. ring. }
      rewrite Z. destruct v as [| |k]; cbn [kpos kv_ok] in *.
      + rewrite side_axis. lra.
      + rewrite side_axis. replace (r * cos h / len * (len - 0)) with (r * cos h) by (field; lra). lra.
      + rewrite side_value. pose proof (cos_sector a Ha k (nxt a j) Hv (nxt_ok j Hj)) as K. fold h in K. nra.
  Qed.
  Lemma cone_inner_side (q : vec R 3) x y z : in_cone q -> In (x, y, z) (map (ktri a) (ktags a)) ->
    0 <= sixvol q (kpos a r len z) (kpos a r len y) (kpos a r len x).
  Proof.
    intros Hq Hin. pose proof (half_range a Ha) as [_ Hc]. fold h in Hc.
    assert (Hrc : 0 < r * cos h) by (apply Rmult_lt_0_compat; assumption).
    destruct q as (xq & yq & zq & []). destruct Hq as [Hz Hq]. apply cone_side; [exact Hin|cbn; lra|].
    intros j Hj. assert (Hz1 : 0 <= 1 - zq / len).
    { apply Rmult_le_reg_r with len; [exact Hlen|]. unfold Rdiv. rewrite Rmult_minus_distr_r, Rmult_assoc, Rinv_l by lra. lra. }
    pose proof (radial_le xq yq (azi a (nxt a j) - h) (r * cos h * (1 - zq / len)) ltac:(apply Rmult_le_pos; lra) Hq) as K.
    unfold side_normal. cbn. replace (r * cos h / len * zq) with (r * cos h - r * cos h * (1 - zq / len)) by (field; lra). lra.
  Qed.

  Lemma cylinder_side (q : vec R 3) x y z : In (x, y, z) (map (ytri a) (ytags a)) ->
    (let '(_, (_, (zq, _))) := q in 0 <= zq <= len) ->
    (forall j, (j < a)%nat -> rdot (side_normal j 0) q <= r * cos h) ->
    0 <= sixvol q (ypos a r len z) (ypos a r len y) (ypos a r len x).
  Proof.
    intros Hin Hz Hs. pose proof (half_range a Ha) as [_ Hc]. fold h in Hc.
    assert (Hrc : 0 < r * cos h) by (apply Rmult_lt_0_compat; assumption).
    pose proof (ytri_away a Ha r len Hr Hlen (len / 2) x y z ltac:(lra) Hin) as Aw. unfold faces_away in Aw. rewrite behind_sixvol in Aw.
    assert (Q : forall j, (j < a)%nat -> rdot (side_normal j 0) (rsub q (0, (0, (len / 2, tt)))) <= r * cos h).
    { intros j Hj. specialize (Hs j Hj). destruct q as (xq & yq & zq & []). unfold side_normal in *. cbn in *. lra. }
    apply in_map_iff in Hin as (t & E & Ht). apply ytags_ok in Ht.
    destruct t as [j|j|j|j]; cbn [ytri ytag_ok] in E, Ht; injection E as <- <- <-; cbn [ypos] in *.
    - apply (plane_side (0, (0, (len / 2, tt))) (0, (0, (-1, tt))) _ _ _ q (len / 2)); try exact Aw; try lra; unfold cylindrical; cbn; try field.
      destruct q as (xq & yq & zq & []). cbn. lra.
    - apply (plane_side (0, (0, (len / 2, tt))) (0, (0, (1, tt))) _ _ _ q (len / 2)); try exact Aw; try lra; unfold cylindrical; cbn; try field.
      destruct q as (xq & yq & zq & []). cbn. lra.
    - apply (plane_side (0, (0, (len / 2, tt))) (side_normal j 0) _ _ _ q (r * cos h)); try exact Aw; try lra; try (apply Q, Ht);
        rewrite side_value; destruct (nxt_azimuth j Ht) as [K1 K2]; rewrite ?K1, ?K2; ring.
    - apply (plane_side (0, (0, (len / 2, tt))) (side_normal j 0) _ _ _ q (r * cos h)); try exact Aw; try lra; try (apply Q, Ht);
        rewrite side_value; destruct (nxt_azimuth j Ht) as [K1 K2]; rewrite ?K1, ?K2; ring.
  Qed.
  Lemma cylinder_vertex_side v x y z : yv_ok a v -> In (x, y, z) (map (ytri a) (ytags a)) ->
    0 <= sixvol (ypos a r len v) (ypos a r len z) (ypos a r len y) (ypos a r len x).
  Proof.
    intros Hv Hin. pose proof (half_range a Ha) as [_ Hc]. fold h in Hc.
    assert (Hrc : 0 < r * cos h) by (apply Rmult_lt_0_compat; assumption).
    apply cylinder_side; [exact Hin| |].
    - destruct v; cbn; lra.
    - intros j Hj. assert (Z : forall q : vec R 3, rdot (side_normal j 0) q = rdot (side_normal j 0) (rsub q (0, (0, (0, tt))))).
      { intros q. destruct q as (xq & yq & zq & []). unfold side_normal. cbn. ring. }
      rewrite Z. destruct v as [| |k|k]; cbn [ypos yv_ok] in *; rewrite ?side_axis, ?side_value; try lra;
        pose proof (cos_sector a Ha k (nxt a j) Hv (nxt_ok j Hj)) as K; fold h in K; nra.
  Qed.
  Lemma cylinder_inner_side (q : vec R 3) x y z : in_cylinder q -> In (x, y, z) (map (ytri a) (ytags a)) ->
    0 <= sixvol q (ypos a r len z) (ypos a r len y) (ypos a r len x).
  Proof.
    intros Hq Hin. pose proof (half_range a Ha) as [_ Hc]. fold h in Hc.
    assert (Hrc : 0 < r * cos h) by (apply Rmult_lt_0_compat; assumption).
    destruct q as (xq & yq & zq & []). destruct Hq as [Hz Hq]. apply cylinder_side; [exact Hin|cbn; lra|].
    intros j Hj. pose proof (radial_le xq yq (azi a (nxt a j) - h) (r * cos h) ltac:(lra) Hq) as K.
    unfold side_normal. cbn. lra.
  Qed.
End Round.

(** ** The cuboid *)
Lemma btri_side o x y z a b c i j k : 0 <= a <= 1 -> 0 <= b <= 1 -> 0 <= c <= 1 -> In (i, j, k) btris ->
  exists w, 0 <= w /\ sixvol (cuboid_point o x y z a b c) (bpos o x y z k) (bpos o x y z j) (bpos o x y z i) = w * rdot (rcross x y) z.
Proof.
  intros Ha Hb Hc H.
  destruct o as (o1 & o2 & o3 & []), x as (x1 & x2 & x3 & []), y as (y1 & y2 & y3 & []), z as (z1 & z2 & z3 & []).
  unfold bpos, bit, sixvol. cbn in H.
  repeat (destruct H as [E|H]; [injection E as <- <- <-; cbn [Nat.testbit Nat.odd Nat.even negb Nat.div2]; unfold cuboid_point; cbn;
    first [exists a; split; [lra|ring] | exists (1 - a); split; [lra|ring]
          |exists b; split; [lra|ring] | exists (1 - b); split; [lra|ring]
          |exists c; split; [lra|ring] | exists (1 - c); split; [lra|ring]]|]).
  contradiction.
Qed.
