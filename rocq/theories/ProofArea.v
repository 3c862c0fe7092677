(** * The area of the tessellations *)

From Coq Require Import List Arith Bool Lia Reals Lra Psatz.
From Verif Require Import Scalar Linal Result SpecReal VecR VecLemmas ModelShapes ModelTransform SpecTransform
  ProofTransform ModelMesh SpecMesh ProofMeshNormal ModelTess SpecTess SpecArea ProofTessComb ProofTessConn ProofTessMesh ProofTessSphere ProofTessRound
  ProofTess ProofTessCuboid ProofVolume.
Import ListNotations.
Local Open Scope R_scope.

Lemma sumR_le {A} (f g : A -> R) l : (forall x, In x l -> f x <= g x) -> sumR (map f l) <= sumR (map g l).
Proof.
  induction l as [|x l IH]; intros H; [apply Rle_refl|]. unfold sumR in *. cbn [map fold_right].
  apply Rplus_le_compat; [apply H; now left|apply IH; intros y Hy; apply H; now right].
Qed.

Definition twice (q0 q1 q2 : vec R 3) : R := rnorm (rcross (rsub q1 q0) (rsub q2 q0)).
Lemma twice_of q0 q1 q2 x : 0 <= x -> rdot (rcross (rsub q1 q0) (rsub q2 q0)) (rcross (rsub q1 q0) (rsub q2 q0)) = x * x -> twice q0 q1 q2 = x.
Proof. intros Hx E. unfold twice, rnorm. rewrite E. apply sqrt_square, Hx. Qed.
Lemma twice_flip q0 q1 q2 : twice q0 q1 q2 = twice q1 q0 q2.
Proof. unfold twice, rnorm. f_equal. v3. ring. Qed.
Lemma twice_rot q0 q1 q2 : twice q0 q1 q2 = twice q1 q2 q0.
Proof. unfold twice, rnorm. f_equal. v3. ring. Qed.
Lemma twice_swap q0 q1 q2 : twice q0 q1 q2 = twice q2 q1 q0.
Proof. unfold twice, rnorm. f_equal. v3. ring. Qed.
Lemma twice_affine (A : vec (vec R 3) 3) t q0 q1 q2 : rigid (affine A t) -> twice (affine A t q0) (affine A t q1) (affine A t q2) = twice q0 q1 q2.
Proof.
  intros H. unfold twice, rnorm. f_equal.
  assert (G : forall u v : vec R 3, rdot (rcross u v) (rcross u v) = rdot u u * rdot v v - rdot u v * rdot u v) by (intros u v; v3; cbn; ring).
  rewrite !G, !(rigid_dot _ _ _ _ _ H). reflexivity.
Qed.

(** ** The mesh *)
Definition twice_area {V} (pos : V -> vec R 3) (tris : list (V * V * V)) : R :=
  sumR (map (fun t => let '(x, y, z) := t in twice (pos z) (pos y) (pos x)) tris).
Lemma good_area M W dbg self {V} (ok : V -> Prop) N tris (pos : V -> vec R 3) m :
  good_mesh M W dbg self ok N tris pos m -> area m = twice_area pos tris / 2.
Proof.
  intros (_ & _ & _ & _ & _ & _ & _ & _ & _ & _ & _ & Ht & _). unfold area, twice_area.
  rewrite <- (map_map (facet_triangle m) (fun t => match t with Some (q0, q1, q2) => triangle_area q0 q1 q2 | None => 0 end)).
  rewrite Ht. unfold solid_triangles. rewrite !map_map. unfold Rdiv. rewrite Rmult_comm, <- sumR_scale.
  apply sumR_ext. intros [[x y] z] _. cbn [map3 rev3]. unfold triangle_area, twice, Rdiv. apply Rmult_comm.
Qed.
Lemma twice_area_affine {V} (A : vec (vec R 3) 3) t (pos : V -> vec R 3) tris : rigid (affine A t) ->
  twice_area (fun v => affine A t (pos v)) tris = twice_area pos tris.
Proof. intros H. unfold twice_area. apply sumR_ext. intros [[x y] z] _. now apply twice_affine. Qed.

(** ** The sphere *)
Section Sphere.
  Context (p a : nat) (Hp : (2 <= p)%nat) (Ha : (3 <= a)%nat) (o : vec R 3) (r : R) (Hr : 0 < r).
  Let d := 2 * PI / INR a.
  Let e := PI / INR p.

  (** two corners on the parallel [th2], the third on the parallel [th1] and the meridian of one of them *)
  Lemma polar_twice th1 th2 m k : 0 <= sin th2 ->
    twice (polar o r th1 (m - k)) (polar o r th2 (m - k)) (polar o r th2 (m + k)) =
    2 * (r * r) * sin th2 * Rabs (sin k) * sqrt ((cos th2 - cos th1) * (cos th2 - cos th1) + (sin th2 - sin th1) * (sin th2 - sin th1) * (cos k * cos k)).
  Proof.
    intros Hs. set (Q := _ + _ * (cos k * cos k)). assert (HQ : 0 <= Q).
    { unfold Q. apply Rplus_le_le_0_compat; [apply Rle_0_sqr|]. apply Rmult_le_pos; apply Rle_0_sqr. }
    apply twice_of.
    - repeat apply Rmult_le_pos; try lra; [apply Rabs_pos|apply sqrt_pos].
    - set (x := sqrt Q). transitivity (2 * (r * r) * sin th2 * (2 * (r * r) * sin th2) * (Rabs (sin k) * Rabs (sin k)) * (x * x)); [|ring].
      unfold x. rewrite sqrt_sqrt by exact HQ. rewrite <- Rabs_mult, (Rabs_pos_eq (sin k * sin k)) by apply Rle_0_sqr.
      unfold polar, Q. rewrite cos_minus, sin_minus, cos_plus, sin_plus. pose proof (sin2_cos2 m) as K. unfold Rsqr in K.
      set (cm := cos m) in *. set (sm := sin m) in *. set (ck := cos k) in *. set (sk := sin k) in *.
      set (c1 := cos th1). set (c2 := cos th2). set (s1 := sin th1). set (s2 := sin th2). destruct o as (ox & oy & oz & []). cbn.
      transitivity (2 * (r * r) * s2 * (2 * (r * r) * s2) * (sk * sk) *
        ((c2 - c1) * (c2 - c1) * (sm * sm + cm * cm) + (s2 - s1) * (s2 - s1) * (ck * ck) * ((sm * sm + cm * cm) * (sm * sm + cm * cm)))); [ring|].
      rewrite K. ring.
  Qed.

  Lemma half_step : 0 < d / 2 < PI / 2 /\ 0 < sin (d / 2) /\ 0 < cos (d / 2).
  Proof.
    pose proof (azi_step a Ha) as H. fold d in H. split; [lra|]. split; [apply sin_gt_0; lra|apply cos_gt_0; lra].
  Qed.
  Lemma half_polar : 0 < e / 2 <= PI / 4 /\ 0 < sin (e / 2) /\ 0 < cos (e / 2).
  Proof.
    pose proof (pol_step p Hp) as H. pose proof (pol_full p Hp) as F. pose proof (INR_p p Hp) as HI. fold e in H, F.
    assert (He2 : 2 * e <= PI) by (rewrite <- F; apply Rmult_le_compat_r; lra).
    split; [lra|]. split; [apply sin_gt_0; lra|apply cos_gt_0; lra].
  Qed.

  Lemma polar_twice_bounds th1 th2 ph ps : 0 <= sin th2 -> cos (th2 - th1) = cos e -> ps = ph + d \/ ps = ph - d ->
    4 * (r * r) * sin (d / 2) * sin (e / 2) * cos (d / 2) * sin th2 <= twice (polar o r th1 ph) (polar o r th2 ph) (polar o r th2 ps)
      <= 4 * (r * r) * sin (d / 2) * sin (e / 2) * sin th2.
  Proof.
    intros Hs He Hps. destruct half_step as (_ & Hsd & Hcd). destruct half_polar as (_ & Hse & _).
    assert (Hk : exists m k, ph = m - k /\ ps = m + k /\ Rabs (sin k) = sin (d / 2) /\ cos k = cos (d / 2)).
    { destruct Hps as [->| ->].
      - exists (ph + d / 2), (d / 2). repeat split; try field. apply Rabs_pos_eq; lra.
      - exists (ph - d / 2), (- (d / 2)). rewrite sin_neg, cos_neg, Rabs_Ropp. repeat split; try field. apply Rabs_pos_eq; lra. }
    destruct Hk as (m & k & -> & -> & K1 & K2). rewrite (polar_twice th1 th2 m k Hs), K1, K2.
    set (C := cos th2 - cos th1). set (D := sin th2 - sin th1).
    assert (CD : C * C + D * D = 2 * sin (e / 2) * (2 * sin (e / 2))).
    { unfold C, D. rewrite cos_minus in He. pose proof (sin2_cos2 th1) as T1. pose proof (sin2_cos2 th2) as T2. unfold Rsqr in T1, T2.
      replace e with (2 * (e / 2)) in He by field. rewrite cos_2a_sin in He.
      set (c1 := cos th1) in *. set (c2 := cos th2) in *. set (s1 := sin th1) in *. set (s2 := sin th2) in *. lra. }
    assert (Hck : cos (d / 2) * cos (d / 2) <= 1) by (pose proof (COS_bound (d / 2)); nra).
    assert (HD : 0 <= D * D) by apply Rle_0_sqr. assert (HC : 0 <= C * C) by apply Rle_0_sqr.
    assert (U : sqrt (C * C + D * D * (cos (d / 2) * cos (d / 2))) <= 2 * sin (e / 2)).
    { rewrite <- (sqrt_square (2 * sin (e / 2))) by lra. apply sqrt_le_1_alt. nra. }
    assert (Lw : 2 * sin (e / 2) * cos (d / 2) <= sqrt (C * C + D * D * (cos (d / 2) * cos (d / 2)))).
    { rewrite <- (sqrt_square (2 * sin (e / 2) * cos (d / 2))) by (apply Rmult_le_pos; lra). apply sqrt_le_1_alt.
      replace (2 * sin (e / 2) * cos (d / 2) * (2 * sin (e / 2) * cos (d / 2))) with ((2 * sin (e / 2) * (2 * sin (e / 2))) * (cos (d / 2) * cos (d / 2))) by ring.
      rewrite <- CD. nra. }
    set (x := sqrt _) in *.
    assert (F : 0 <= 2 * (r * r) * sin th2 * sin (d / 2)) by (repeat apply Rmult_le_pos; lra). split.
    - replace (4 * _ * _ * _ * _ * _) with ((2 * (r * r) * sin th2 * sin (d / 2)) * (2 * sin (e / 2) * cos (d / 2))) by ring. now apply Rmult_le_compat_l.
    - replace (4 * _ * _ * _ * _) with ((2 * (r * r) * sin th2 * sin (d / 2)) * (2 * sin (e / 2))) by ring. now apply Rmult_le_compat_l.
  Qed.

  Definition between (w x : R) : Prop :=
    4 * (r * r) * sin (d / 2) * sin (e / 2) * cos (d / 2) * w <= x <= 4 * (r * r) * sin (d / 2) * sin (e / 2) * w.

  Lemma pol_sin i : (i <= p)%nat -> 0 <= sin (pol p i).
  Proof.
    intros Hi. pose proof (pol_step p Hp) as H. pose proof (pol_full p Hp) as F. unfold pol. apply sin_ge_0.
    - apply Rmult_le_pos; [apply pos_INR|lra].
    - apply Rle_trans with (INR p * (PI / INR p)); [|lra]. apply Rmult_le_compat_r; [lra|]. apply le_INR, Hi.
  Qed.

  Lemma stri_twice t : tag_ok p a t -> let '(x, y, z) := stri p a t in
    between (weight p t) (twice (spos p a o r z) (spos p a o r y) (spos p a o r x)).
  Proof.
    assert (Pv : forall i j, (j < a)%nat -> spos p a o r (Ring i (prv a j)) = polar o r (pol p (i + 1)) (azi a j - d)).
    { intros i j Hj. cbn [spos]. unfold polar. destruct (azi_prv a Ha j Hj) as [-> ->]. reflexivity. }
    assert (Tp : forall ph, spos p a o r Top = polar o r 0 ph).
    { intros ph. cbn [spos]. unfold polar. rewrite sin_0, !Rmult_0_l. reflexivity. }
    assert (Bt : forall ph, spos p a o r Bot = polar o r PI ph).
    { intros ph. cbn [spos]. unfold polar. rewrite sin_PI, !Rmult_0_l. reflexivity. }
    assert (Hpe : forall k, pol p (k + 1) = pol p k + e) by (intros k; unfold pol, e; rewrite plus_INR; cbn; ring).
    assert (P1 : pol p (0 + 1) = e) by (unfold pol; cbn; unfold e; ring).
    assert (P2 : pol p (p - 2 + 1) = PI - e).
    { pose proof (pol_full p Hp) as F. unfold pol. fold e in F |- *.
      replace (p - 2 + 1)%nat with (p - 1)%nat by lia. rewrite minus_INR by lia. cbn [INR]. lra. }
    unfold between. destruct t as [j|j|i j|i j]; cbn [tag_ok stri weight]; intros Ht; rewrite ?Pv by lia; fold e.
    - rewrite (Tp (azi a j)). change (spos p a o r (Ring 0 j)) with (polar o r (pol p (0 + 1)) (azi a j)). rewrite P1.
      rewrite twice_swap. apply polar_twice_bounds; [rewrite <- P1; apply pol_sin; lia|f_equal; ring|right; reflexivity].
    - rewrite (Bt (azi a j - d)). change (spos p a o r (Ring (p - 2) j)) with (polar o r (pol p (p - 2 + 1)) (azi a j)). rewrite P2.
      rewrite twice_flip.
      replace (sin e) with (sin (PI - e)) by apply sin_PI_x.
      apply polar_twice_bounds; [rewrite <- P2; apply pol_sin; lia|replace (PI - e - PI) with (- e) by ring; apply cos_neg|left; ring].
    - change (spos p a o r (Ring (i - 1) j)) with (polar o r (pol p (i - 1 + 1)) (azi a j)).
      replace (i - 1 + 1)%nat with i by lia.
      rewrite twice_flip. apply polar_twice_bounds; [apply pol_sin; lia|rewrite Hpe; replace (pol p i - (pol p i + e)) with (- e) by ring; apply cos_neg|left; ring].
    - change (spos p a o r (Ring (i - 1) j)) with (polar o r (pol p (i - 1 + 1)) (azi a j)).
      change (spos p a o r (Ring i j)) with (polar o r (pol p (i + 1)) (azi a j)).
      replace (i - 1 + 1)%nat with i by lia.
      rewrite twice_flip. apply polar_twice_bounds; [apply pol_sin; lia|rewrite Hpe; f_equal; ring|right; reflexivity].
  Qed.
  Lemma ctri_twice t : tag_ok p a t -> let '(x, y, z) := ctri p a t in
    between (weight p t) (twice (spos p a o r z) (spos p a o r y) (spos p a o r x)).
  Proof.
    intros Ht. pose proof (stri_twice t Ht) as K. destruct t as [[|j]|[|j]|i [|j]|i [|j]]; cbn [ctri stri] in *; unfold prv in *; cbn [Nat.eqb] in *;
      solve [exact K | rewrite twice_rot; exact K | rewrite twice_rot, twice_rot; exact K].
  Qed.

  Lemma weights : sumR (map (weight p) (ctags p a)) = 2 * INR a * cos (e / 2) / sin (e / 2).
  Proof.
    pose proof (sphere_solid6 p a Hp Ha rzero 1) as K. unfold solid6 in K. rewrite map_map in K.
    rewrite (sumR_ext _ (fun t => 1 * 1 * 1 * sin e * sin d * weight p t)) in K.
    2:{ intros t Ht. apply (ctags_ok p a Hp Ha) in Ht. pose proof (ctri_sixvol p a Hp Ha rzero 1 t Ht) as H. destruct (ctri p a t) as [[x y] z]. exact H. }
    rewrite sumR_scale in K. fold d e in K. set (Q := sumR _) in *.
    destruct half_polar as (_ & Hs & Hc). pose proof (sin_step a Ha) as Hd. fold d in Hd.
    replace e with (2 * (e / 2)) in K by field. rewrite sin_2a, cos_2a_cos in K.
    apply Rmult_eq_reg_l with (2 * sin (e / 2) * cos (e / 2) * sin d).
    - transitivity (1 * 1 * 1 * (2 * sin (e / 2) * cos (e / 2)) * sin d * Q); [ring|]. rewrite K. field. lra.
    - apply Rgt_not_eq. repeat apply Rmult_lt_0_compat; lra.
  Qed.

  Lemma sphere_twice : 8 * INR a * (r * r) * sin (d / 2) * cos (d / 2) * cos (e / 2) <= twice_area (spos p a o r) (map (ctri p a) (ctags p a))
    <= 8 * INR a * (r * r) * sin (d / 2) * cos (e / 2).
  Proof.
    destruct half_polar as (_ & Hs & Hc).
    unfold twice_area. rewrite map_map. split.
    - apply Rle_trans with (sumR (map (fun t => 4 * (r * r) * sin (d / 2) * sin (e / 2) * cos (d / 2) * weight p t) (ctags p a))).
      + rewrite sumR_scale, weights. right. field. lra.
      + apply sumR_le. intros t Ht. apply (ctags_ok p a Hp Ha) in Ht. pose proof (ctri_twice t Ht) as K. destruct (ctri p a t) as [[x y] z]. apply K.
    - apply Rle_trans with (sumR (map (fun t => 4 * (r * r) * sin (d / 2) * sin (e / 2) * weight p t) (ctags p a))).
      + apply sumR_le. intros t Ht. apply (ctags_ok p a Hp Ha) in Ht. pose proof (ctri_twice t Ht) as K. destruct (ctri p a t) as [[x y] z]. apply K.
      + rewrite sumR_scale, weights. right. field. lra.
  Qed.
End Sphere.

(** ** Cone and cylinder *)
Section Round.
  Context (a : nat) (Ha : (3 <= a)%nat) (r len : R) (Hr : 0 < r) (Hl : 0 < len).
  Let d := 2 * PI / INR a.

  Lemma fan_twice z0 z m k : twice (0, (0, (z0, tt))) (cylindrical r (m - k) z) (cylindrical r (m + k) z) =
    2 * r * Rabs (sin k) * sqrt ((z0 - z) * (z0 - z) + r * cos k * (r * cos k)).
  Proof.
    set (Q := (z0 - z) * (z0 - z) + r * cos k * (r * cos k)).
    assert (HQ : 0 <= Q) by (apply Rplus_le_le_0_compat; apply Rle_0_sqr).
    apply twice_of.
    - repeat apply Rmult_le_pos; try lra; [apply Rabs_pos|apply sqrt_pos].
    - set (x := sqrt Q). transitivity (2 * r * (2 * r) * (Rabs (sin k) * Rabs (sin k)) * (x * x)); [|ring].
      unfold x. rewrite sqrt_sqrt by exact HQ. rewrite <- Rabs_mult, (Rabs_pos_eq (sin k * sin k)) by apply Rle_0_sqr.
      unfold cylindrical, Q. rewrite cos_minus, sin_minus, cos_plus, sin_plus. pose proof (sin2_cos2 m) as K. unfold Rsqr in K.
      set (cm := cos m) in *. set (sm := sin m) in *. set (ck := cos k) in *. set (sk := sin k) in *. cbn.
      transitivity (2 * r * (2 * r) * (sk * sk) * ((z0 - z) * (z0 - z) * (sm * sm + cm * cm) + r * ck * (r * ck) * ((sm * sm + cm * cm) * (sm * sm + cm * cm)))); [ring|].
      rewrite K. ring.
  Qed.
  Lemma wall_twice z z' m k : twice (cylindrical r (m - k) z) (cylindrical r (m - k) z') (cylindrical r (m + k) z) = 2 * r * Rabs (sin k) * Rabs (z' - z).
  Proof.
    apply twice_of.
    - repeat apply Rmult_le_pos; try lra; apply Rabs_pos.
    - transitivity (2 * r * (2 * r) * (Rabs (sin k) * Rabs (sin k)) * (Rabs (z' - z) * Rabs (z' - z))); [|ring].
      rewrite <- !Rabs_mult, (Rabs_pos_eq (sin k * sin k)), (Rabs_pos_eq ((z' - z) * (z' - z))) by apply Rle_0_sqr.
      unfold cylindrical. rewrite cos_minus, sin_minus, cos_plus, sin_plus. pose proof (sin2_cos2 m) as K. unfold Rsqr in K.
      set (cm := cos m) in *. set (sm := sin m) in *. set (ck := cos k) in *. set (sk := sin k) in *. cbn.
      transitivity (2 * r * (2 * r) * (sk * sk) * ((z' - z) * (z' - z)) * (sm * sm + cm * cm)); [ring|]. rewrite K. ring.
  Qed.
  Lemma slice_twice z m k : 0 <= sin k -> 0 <= cos k -> twice (0, (0, (z, tt))) (cylindrical r (m - k) z) (cylindrical r (m + k) z) = r * r * sin (2 * k).
  Proof.
    intros Hs Hc. rewrite fan_twice, (Rabs_pos_eq _ Hs), sin_2a. replace (z - z) with 0 by ring. rewrite Rmult_0_l, Rplus_0_l, sqrt_square by (apply Rmult_le_pos; lra). ring.
  Qed.
  Lemma nxt_at j z : (j < a)%nat -> cylindrical r (azi a j) z = cylindrical r (azi a j + d / 2 - d / 2) z /\ cylindrical r (azi a (nxt a j)) z = cylindrical r (azi a j + d / 2 + d / 2) z.
  Proof.
    intros Hj. split; [f_equal; ring|]. unfold cylindrical. destruct (azi_nxt a j Ha Hj) as [-> ->]. fold d. replace (azi a j + d / 2 + d / 2) with (azi a j + d) by field. reflexivity.
  Qed.
  Lemma prv_at j z : (j < a)%nat -> cylindrical r (azi a j) z = cylindrical r (azi a j - d / 2 + d / 2) z /\ cylindrical r (azi a (prv a j)) z = cylindrical r (azi a j - d / 2 - d / 2) z.
  Proof.
    intros Hj. split; [f_equal; ring|]. unfold cylindrical. destruct (azi_prv a Ha j Hj) as [-> ->]. fold d. replace (azi a j - d / 2 - d / 2) with (azi a j - d) by field. reflexivity.
  Qed.

  Lemma cone_twice : twice_area (kpos a r len) (map (ktri a) (ktags a)) =
    INR a * (r * r * sin d) + INR a * (2 * r * sin (d / 2) * sqrt (len * len + r * cos (d / 2) * (r * cos (d / 2)))).
  Proof.
    destruct (half_step a Ha) as (_ & Hs & Hc). fold d in Hs, Hc.
    unfold twice_area. rewrite map_map. unfold ktags. rewrite map_app, sumR_app, !map_map.
    rewrite (sumR_const _ (r * r * sin d)), (sumR_const _ (2 * r * sin (d / 2) * sqrt (len * len + r * cos (d / 2) * (r * cos (d / 2))))).
    - rewrite seq_length. reflexivity.
    - intros j Hj. apply in_seq in Hj. cbn [ktri kpos]. destruct (nxt_at j 0 ltac:(lia)) as [-> ->].
      rewrite twice_rot, twice_rot, fan_twice.
      rewrite (Rabs_pos_eq (sin (d / 2))) by lra. replace (len - 0) with len by ring. reflexivity.
    - intros j Hj. apply in_seq in Hj. cbn [ktri kpos]. destruct (nxt_at j 0 ltac:(lia)) as [-> ->].
      replace (sin d) with (sin (2 * (d / 2))) by (f_equal; field).
      rewrite <- (slice_twice 0 (azi a j + d / 2) (d / 2)) by lra.
      apply twice_swap.
  Qed.

  Lemma cylinder_twice : twice_area (ypos a r len) (map (ytri a) (ytags a)) = 2 * INR a * (r * r * sin d) + 4 * INR a * (r * sin (d / 2) * len).
  Proof.
    destruct (half_step a Ha) as (_ & Hs & Hc). fold d in Hs, Hc.
    assert (Ed : sin d = sin (2 * (d / 2))) by (f_equal; field).
    unfold twice_area. rewrite map_map. unfold ytags. rewrite !map_app, !sumR_app, !map_map, sumR_flat. cbn [map].
    rewrite (sumR_const _ (r * r * sin d)), (sumR_const _ (r * r * sin d)), (sumR_const _ (4 * (r * sin (d / 2) * len))).
    - rewrite seq_length. ring.
    - intros j Hj. apply in_seq in Hj. unfold sumR. cbn [fold_right ytri ypos].
      destruct (nxt_at j 0 ltac:(lia)) as [-> ->]. destruct (nxt_at j len ltac:(lia)) as [-> ->].
      rewrite (twice_swap (cylindrical r (azi a j + d / 2 + d / 2) 0) (cylindrical r (azi a j + d / 2 - d / 2) len)), wall_twice.
      rewrite (twice_flip (cylindrical r (azi a j + d / 2 + d / 2) 0)).
      pose proof (wall_twice len 0 (azi a j + d / 2) (- (d / 2))) as K.
      replace (azi a j + d / 2 - - (d / 2)) with (azi a j + d / 2 + d / 2) in K by ring. replace (azi a j + d / 2 + - (d / 2)) with (azi a j + d / 2 - d / 2) in K by ring.
      rewrite K, sin_neg, Rabs_Ropp, (Rabs_pos_eq (sin (d / 2))) by lra.
      replace (0 - len) with (- len) by ring. rewrite Rabs_Ropp, !(Rabs_pos_eq) by lra. ring.
    - intros k Hk. apply in_seq in Hk. assert (Hj : (neg a k < a)%nat) by (apply neg_lt; lia). generalize dependent (neg a k). intros j Hj.
      cbn [ytri ypos]. destruct (prv_at j len Hj) as [-> ->]. rewrite Ed.
      rewrite <- (slice_twice len (azi a j - d / 2) (d / 2)) by lra. rewrite twice_rot, twice_rot. reflexivity.
    - intros j Hj. apply in_seq in Hj. cbn [ytri ypos]. destruct (nxt_at j 0 ltac:(lia)) as [-> ->]. rewrite Ed.
      rewrite <- (slice_twice 0 (azi a j + d / 2) (d / 2)) by lra. apply twice_swap.
  Qed.
End Round.

Lemma cuboid_twice o x y z : twice_area (bpos o x y z) btris = 4 * (rnorm (rcross x y) + rnorm (rcross y z) + rnorm (rcross x z)).
Proof.
  assert (K : forall q0 q1 q2 u v : vec R 3, rdot (rcross (rsub q1 q0) (rsub q2 q0)) (rcross (rsub q1 q0) (rsub q2 q0)) = rdot (rcross u v) (rcross u v) -> twice q0 q1 q2 = rnorm (rcross u v)).
  { intros q0 q1 q2 u v E. unfold twice, rnorm. now rewrite E. }
  unfold twice_area, btris, sumR. cbn [map rev3 fold_right]. unfold bpos, bit. cbn [Nat.testbit Nat.odd Nat.even negb Nat.div2].
  unfold cuboid_point.
  repeat match goal with |- context [twice ?q0 ?q1 ?q2] =>
    first [rewrite (K q0 q1 q2 x y) by (v3; cbn; ring) | rewrite (K q0 q1 q2 y z) by (v3; cbn; ring) | rewrite (K q0 q1 q2 x z) by (v3; cbn; ring)] end.
  ring.
Qed.
