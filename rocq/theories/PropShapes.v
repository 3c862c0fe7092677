(** * Property theorems: primitives (C38, C45, C46) *)

From Coq Require Import List Arith Bool Lia Reals Lra Psatz.
From Verif Require Import Scalar Linal Result SpecReal SpecBox VecR VecLemmas ModelShapes ProofBox ProofDistance ProofDistance2 PropDistance.
Import ListNotations.
Local Open Scope R_scope.

Lemma along_normalize {n} (o d : vec R n) t : d <> rzero ->
  along o (rscale (/ rnorm d) d) t = along o d (t / rnorm d) /\
  along o d t = along o (rscale (/ rnorm d) d) (t * rnorm d).
Proof.
  intros Hd. pose proof (nonzero_norm d Hd). unfold along. rewrite !rscale_scale. split; f_equal; f_equal; field; lra.
Qed.

(** ** C38: construction normalises, and does not change the point set *)
Theorem C38_line_normalised :
  forall (M : R) (n : nat) (o d : vec R n), d <> rzero ->
    let l := @line_make (RS M) n o d in
    rnorm (l_dir l) = 1 /\ l_origin l = o /\ forall p, on_line (l_origin l) (l_dir l) p <-> on_line o d p.
Proof.
  intros M n o d Hd. cbn zeta. unfold line_make. cbn [l_dir l_origin]. rewrite normalize_R.
  split; [apply rnorm_normalize, Hd|]. split; [reflexivity|]. intros p. split.
  - intros (t & ->). exists (t / rnorm d). apply along_normalize, Hd.
  - intros (t & ->). exists (t * rnorm d). apply along_normalize, Hd.
Qed.
Print Assumptions C38_line_normalised.

Theorem C38_ray_normalised :
  forall (M : R) (L : Linal (RS M)) (dbg : bool) (n : nat) (o d : vec R n) (r : ray (RS M) n), d <> rzero ->
    @ray_make (RS M) L dbg n o d = Ok r ->
    rnorm (r_dir r) = 1 /\ r_origin r = o /\ forall p, on_ray (r_origin r) (r_dir r) p <-> on_ray o d p.
Proof.
  intros M L dbg n o d r Hd H. pose proof (nonzero_norm d Hd) as Hn.
  assert (E : r = @mkRay (RS M) n o (normalize d)).
  { unfold ray_make in H. destruct (geo_assert dbg _); try discriminate. now apply Ok_inj in H. }
  subst r. cbn [r_dir r_origin]. rewrite normalize_R.
  split; [apply rnorm_normalize, Hd|]. split; [reflexivity|]. intros p. split.
  - intros (t & Ht & ->). exists (t / rnorm d). split; [|apply along_normalize, Hd].
    apply Rmult_le_pos; [exact Ht|]. apply Rlt_le, Rinv_0_lt_compat, Hn.
  - intros (t & Ht & ->). exists (t * rnorm d). split; [nra|apply along_normalize, Hd].
Qed.
Print Assumptions C38_ray_normalised.

(** construction succeeds exactly for directions longer than eps (debug build);
    in a release build the check is absent *)
Theorem C38_ray_make_succeeds :
  forall (M : R) (L : Linal (RS M)) (n : nat) (o d : vec R n),
    ((exists r, @ray_make (RS M) L true n o d = Ok r) <-> leps L < rnorm d) /\
    (exists r, @ray_make (RS M) L false n o d = Ok r).
Proof.
  intros M L n o d. unfold ray_make. rewrite vlength_R. split; [split|].
  - intros (r & H). cbn [geo_assert sltb RS] in H.
    destruct (Rltb (leps L) (rnorm d)) eqn:E; [now apply Rltb_true in E|discriminate].
  - intros H. rewrite geo_assert_true by (apply (proj2 (Rltb_true _ _)); exact H). eexists; reflexivity.
  - rewrite geo_assert_off. eexists; reflexivity.
Qed.
Print Assumptions C38_ray_make_succeeds.

Theorem C38_plane_normalised :
  forall (M : R) (o nrm : vec R 3), nrm <> rzero ->
    let p := @plane_make (RS M) o nrm in
    rnorm (p_normal p) = 1 /\ p_origin p = o /\ forall q, on_plane (p_origin p) (p_normal p) q <-> on_plane o nrm q.
Proof.
  intros M o nrm Hd. cbn zeta. unfold plane_make. cbn [p_origin p_normal]. rewrite normalize_R.
  pose proof (nonzero_norm nrm Hd) as Hn.
  split; [apply rnorm_normalize, Hd|]. split; [reflexivity|]. intros q. unfold on_plane. vdot.
  pose proof (Rinv_neq_0_compat (rnorm nrm)). split; intros H0.
  - apply Rmult_eq_reg_l with (/ rnorm nrm); [|apply H; lra]. lra.
  - replace (rdot nrm q) with (rdot nrm o) by lra. ring.
Qed.
Print Assumptions C38_plane_normalised.

(** histories of setter calls on a ray *)
Inductive ray_op (n : nat) := RSetOrigin (o : vec R n) | RSetDirection (d : vec R n).
Arguments RSetOrigin {n} _.
Arguments RSetDirection {n} _.
Definition ray_step {M n} (r : ray (RS M) n) (o : ray_op n) : ray (RS M) n :=
  match o with
  | RSetOrigin p => ray_set_origin r p
  | RSetDirection d => ray_set_direction r d
  end.

(** the direction stays normalised as long as set_direction gets unit vectors *)
Theorem C38_ray_history_partial :
  forall (M : R) (n : nat) (r : ray (RS M) n) (h : list (ray_op n)),
    rnorm (r_dir r) = 1 -> (forall d, In (RSetDirection d) h -> rnorm d = 1) ->
    rnorm (r_dir (fold_left ray_step h r)) = 1.
Proof.
  intros M n r h. revert r. induction h as [|o h IH]; intros r Hr Hh; [exact Hr|].
  cbn [fold_left]. apply IH.
  - destruct o as [p|d]; cbn; [exact Hr|]. apply Hh. now left.
  - intros d Hd. apply Hh. now right.
Qed.
Print Assumptions C38_ray_history_partial.

(** set_direction stores any vector, also the zero vector *)
Theorem C38_set_direction_refuted :
  forall (M : R) (n : nat) (r : ray (RS M) n) (d : vec R n), rnorm d <> 1 ->
    rnorm (r_dir (fold_left ray_step [RSetDirection d] r)) <> 1.
Proof. intros M n r d H. exact H. Qed.
Print Assumptions C38_set_direction_refuted.

Example C38_example :
  (mk2 3 4 : vec R 2) <> rzero /\ rnorm (mk2 3 4) = 5 /\ rnorm (mk2 2 0) <> 1 /\
  rnorm (r_dir (fold_left ray_step [RSetOrigin (mk2 7 7)] (@mkRay (RS 100) 2 (mk2 0 0) (mk2 1 0)))) = 1.
Proof.
  repeat split.
  - intros H. apply (f_equal fst) in H. cbn in H. lra.
  - apply rnorm_is; [lra|cbn; ring].
  - replace (rnorm (mk2 2 0)) with 2 by (symmetry; apply rnorm_is; [lra|cbn; ring]). lra.
  - apply rnorm_is; [lra|cbn; ring].
Qed.

(** ** C45: operator== of the primitives: reflexive, and equal objects agree up
    to eps in every coordinate and radius *)
Definition near {n} (e : R) (u v : vec R n) : Prop := forall i, (i < n)%nat -> Rabs (comp i u - comp i v) <= e.

Theorem C45_equality_reflexive :
  forall (M : R) (L : Linal (RS M)), LinalR L ->
    (forall n (a : line (RS M) n), line_eq L a a = true) /\
    (forall n (a : ray (RS M) n), ray_eq L a a = true) /\
    (forall n (a : segment (RS M) n), segment_eq L a a = true) /\
    (forall a : plane (RS M), plane_eq L a a = true) /\
    (forall a : sphere (RS M), sphere_eq L a a = true) /\
    (forall a : circle2 (RS M), circle2_eq L a a = true) /\
    (forall a : circle3 (RS M), circle3_eq L a a = true) /\
    (forall a : cone (RS M), cone_eq L a a = true) /\
    (forall a : cylinder (RS M), cylinder_eq L a a = true) /\
    (forall a : cuboid (RS M), cuboid_eq L a a = true).
Proof.
  intros M L HL. pose proof (lr_eps L HL) as He.
  unfold line_eq, ray_eq, plane_eq, sphere_eq, circle2_eq, circle3_eq, cone_eq, cylinder_eq, cuboid_eq, segment_eq.
  repeat split; intros; rewrite ?(is_equal_refl HL), ?(lr_eq_0 L HL) by exact He; reflexivity.
Qed.
Print Assumptions C45_equality_reflexive.

Theorem C45_equality_sound :
  forall (M : R) (L : Linal (RS M)), LinalR L ->
    (forall n (a b : line (RS M) n), line_eq L a b = true ->
       near (leps L) (l_origin a) (l_origin b) /\ near (leps L) (l_dir a) (l_dir b)) /\
    (forall n (a b : ray (RS M) n), ray_eq L a b = true ->
       near (leps L) (r_origin a) (r_origin b) /\ near (leps L) (r_dir a) (r_dir b)) /\
    (forall n (a b : segment (RS M) n), segment_eq L a b = true ->
       near (leps L) (g_source a) (g_source b) /\ near (leps L) (g_target a) (g_target b)) /\
    (forall a b : plane (RS M), plane_eq L a b = true ->
       near (leps L) (p_origin a) (p_origin b) /\ near (leps L) (p_normal a) (p_normal b)) /\
    (forall a b : sphere (RS M), sphere_eq L a b = true ->
       near (leps L) (s_origin a) (s_origin b) /\ Rabs (s_radius a - s_radius b) <= leps L) /\
    (forall a b : circle2 (RS M), circle2_eq L a b = true ->
       near (leps L) (c2_origin a) (c2_origin b) /\ Rabs (c2_radius a - c2_radius b) <= leps L) /\
    (forall a b : circle3 (RS M), circle3_eq L a b = true ->
       near (leps L) (c3_origin a) (c3_origin b) /\ Rabs (c3_radius a - c3_radius b) <= leps L /\
       near (leps L) (c3_normal a) (c3_normal b)) /\
    (forall a b : cone (RS M), cone_eq L a b = true ->
       near (leps L) (g_source (co_segment a)) (g_source (co_segment b)) /\
       near (leps L) (g_target (co_segment a)) (g_target (co_segment b)) /\
       Rabs (co_radius a - co_radius b) <= leps L) /\
    (forall a b : cylinder (RS M), cylinder_eq L a b = true ->
       near (leps L) (g_source (cy_segment a)) (g_source (cy_segment b)) /\
       near (leps L) (g_target (cy_segment a)) (g_target (cy_segment b)) /\
       Rabs (cy_radius a - cy_radius b) <= leps L) /\
    (forall a b : cuboid (RS M), cuboid_eq L a b = true ->
       near (leps L) (cu_origin a) (cu_origin b) /\ near (leps L) (cu_x a) (cu_x b) /\
       near (leps L) (cu_y a) (cu_y b) /\ near (leps L) (cu_z a) (cu_z b)).
Proof.
  intros M L HL. pose proof (lr_eps L HL) as He. unfold near.
  unfold line_eq, ray_eq, plane_eq, sphere_eq, circle2_eq, circle3_eq, cone_eq, cylinder_eq, cuboid_eq, segment_eq.
  repeat split; intros; rewrite ?andb_true_iff in *;
    repeat match goal with H : _ /\ _ |- _ => destruct H end;
    first [eapply (is_equal_sound HL); eassumption | apply (lr_eq_1 L HL); assumption].
Qed.
Print Assumptions C45_equality_sound.

Example C45_example :
  let L := tol_linal (RS 100) (/ 10) in
  sphere_eq L (@mkSphere (RS 100) (mk3 0 0 0) 1) (@mkSphere (RS 100) (mk3 0 0 0) (1 + / 20)) = true /\
  sphere_eq L (@mkSphere (RS 100) (mk3 0 0 0) 1) (@mkSphere (RS 100) (mk3 0 0 0) 2) = false.
Proof.
  cbn zeta. unfold sphere_eq, is_equal. cbn. split; unfold Rabs; repeat (destruct Rcase_abs; try lra); rdec; reflexivity.
Qed.

(** ** C46: queries of segment, cone, cylinder and cuboid *)
Theorem C46_segment_queries :
  forall (M : R) (n : nat) (g : segment (RS M) n),
    segment_length g = rdist (g_target g) (g_source g) /\
    (g_source g <> g_target g ->
       rnorm (segment_direction g) = 1 /\
       g_target g = along (g_source g) (segment_direction g) (segment_length g)).
Proof.
  intros M n g. unfold segment_length, segment_direction. toR. split; [reflexivity|].
  intros Hne. assert (Hd : rsub (g_target g) (g_source g) <> rzero).
  { intros E. apply rsub_eq_zero in E. congruence. }
  pose proof (nonzero_norm _ Hd). split; [apply rnorm_normalize, Hd|].
  unfold along. rewrite rscale_scale, Rinv_r, rscale_1 by lra. now rewrite radd_rsub.
Qed.
Print Assumptions C46_segment_queries.

(** the slant height is the distance from the peak to every point of the base
    circle; the opening angle is twice the angle between axis and slant *)
Theorem C46_cone_queries :
  forall (M : R) (mid peak : vec R 3) (r : R), 0 <= r -> mid <> peak ->
    let c := @cone_make (RS M) mid peak r in
    cone_height c = rdist peak mid /\
    (forall p, rdist p mid = r -> rdot (rsub p mid) (rsub peak mid) = 0 -> cone_slant_height c = rdist peak p) /\
    0 <= cone_opening_angle c < PI /\
    tan (cone_opening_angle c / 2) = r / rdist peak mid.
Proof.
  intros M mid peak r Hr Hne. cbn zeta.
  assert (Hh : @cone_height (RS M) (cone_make mid peak r) = rdist peak mid).
  { unfold cone_height, cone_make, segment_length. cbn [co_segment g_source g_target]. now toR. }
  assert (Hpos : 0 < rdist peak mid).
  { pose proof (rdist_nonneg peak mid) as H. destruct (Req_dec (rdist peak mid) 0) as [E|E]; [|lra].
    apply rdist_zero in E. congruence. }
  split; [exact Hh|]. split; [|].
  - intros p Hp Ho. unfold cone_slant_height. rewrite Hh. cbn [co_radius cone_make ssqrt sadd smul RS].
    apply sq_eq; [apply sqrt_pos|apply rdist_nonneg|]. rewrite sqrt_sqrt by nra.
    rewrite <- Hp, !rdist_sq.
    replace (rsub peak p) with (rsub (rsub peak mid) (rsub p mid)).
    2:{ apply eq_by_dot. vring. }
    set (u := rsub peak mid) in *. set (w := rsub p mid) in *. vdot. rewrite (rdot_comm u w), Ho. ring.
  - unfold cone_opening_angle. rewrite Hh. cbn [co_radius cone_make satan smul sdiv sadd s1 RS].
    assert (Hq : 0 <= r / rdist peak mid).
    { apply Rmult_le_pos; [exact Hr|]. apply Rlt_le, Rinv_0_lt_compat, Hpos. }
    pose proof (atan_bound (r / rdist peak mid)) as Hb. split.
    + split; [|lra]. assert (0 <= atan (r / rdist peak mid)); [|lra].
      destruct (Rle_lt_or_eq_dec _ _ Hq) as [Hlt|<-]; [|rewrite atan_0; lra].
      apply Rlt_le. rewrite <- atan_0. apply atan_increasing. exact Hlt.
    + replace (atan (r / rdist peak mid) * (1 + 1) / 2) with (atan (r / rdist peak mid)) by field.
      apply atan_right_inv.
Qed.
Print Assumptions C46_cone_queries.

(** the corners of a cuboid: the origin plus every subset of the three sides,
    each once; built from a diagonal, the far corner is origin + diagonal and
    the sides are axis parallel *)
Definition corner (o x y z : vec R 3) (a b c : bool) : vec R 3 :=
  radd o (radd (rscale (if a then 1 else 0) x) (radd (rscale (if b then 1 else 0) y) (rscale (if c then 1 else 0) z))).

Theorem C46_cuboid_corners :
  forall (M : R) (o x y z : vec R 3),
    @cuboid_vertices (RS M) (@mkCuboid (RS M) o x y z) =
    [corner o x y z false false false; corner o x y z true false false; corner o x y z true true false;
     corner o x y z false true false; corner o x y z false false true; corner o x y z true false true;
     corner o x y z true true true; corner o x y z false true true].
Proof.
  intros M o x y z. unfold cuboid_vertices, corner. cbn [cu_origin cu_x cu_y cu_z]. toR.
  rewrite !rscale_0, !rscale_1, ?radd_zero_r.
  repeat (apply f_equal2; [apply eq_by_dot; vring|]). reflexivity.
Qed.
Print Assumptions C46_cuboid_corners.

Theorem C46_cuboid_from_diagonal :
  forall (M : R) (o : vec R 3) (dx dy dz : R),
    let c := @cuboid_diag (RS M) o (mk3 dx dy dz) in
    cu_origin c = o /\ cu_x c = mk3 dx 0 0 /\ cu_y c = mk3 0 dy 0 /\ cu_z c = mk3 0 0 dz /\
    nth 6 (cuboid_vertices c) rzero = radd o (mk3 dx dy dz).
Proof.
  intros M o dx dy dz. cbn zeta. unfold cuboid_diag. cbn [cu_origin cu_x cu_y cu_z]. toR.
  assert (Hx : @projection (RS M) 3 (mk3 dx dy dz) unitX = mk3 dx 0 0) by (unfold projection, unitX, vscale; veqs).
  assert (Hy : @projection (RS M) 3 (mk3 dx dy dz) unitY = mk3 0 dy 0) by (unfold projection, unitY, vscale; veqs).
  assert (Hz : @projection (RS M) 3 (mk3 dx dy dz) unitZ = mk3 0 0 dz) by (unfold projection, unitZ, vscale; veqs).
  rewrite ?projection_R in *. rewrite Hx, Hy, Hz. repeat split.
  destruct o as [a [b [c []]]]. cbn. unfold mk3. cbn. repeat (apply f_equal2; [ring|]). reflexivity.
Qed.
Print Assumptions C46_cuboid_from_diagonal.

(** after any sequence of calls of the setters of the source ([false]) and the target
    ([true]) the end points are the last ones set *)
Theorem C46_segment_setters :
  forall (S : Scalar) (n : nat) (g : segment S n) (calls : list (bool * vec S n)),
    let r := fold_left (fun (g : segment S n) (c : bool * vec S n) => if fst c then segment_set_target g (snd c) else segment_set_source g (snd c)) calls g in
    g_source r = last (map snd (filter (fun c : bool * vec S n => negb (fst c)) calls)) (g_source g) /\
    g_target r = last (map snd (filter fst calls)) (g_target g).
Proof.
  intros S n b calls. revert b. induction calls as [|[w p] calls IH]; intros b; cbn zeta; [split; reflexivity|].
  assert (K : forall (x d : vec S n) l, last (x :: l) d = last l x).
  { intros x d l. destruct l as [|y l]; [reflexivity|]. change (last (x :: y :: l) d) with (last (y :: l) d).
    revert x d y. induction l as [|z l IHl]; intros x d y; [reflexivity|]. change (last (z :: l) d = last (z :: l) x). apply IHl with (x := x). }
  cbn [fold_left fst snd]. destruct (IH (if w then segment_set_target b p else segment_set_source b p)) as [I1 I2]. rewrite I1, I2.
  destruct w; cbn [filter fst snd negb map]; rewrite ?K; split; reflexivity.
Qed.
Print Assumptions C46_segment_setters.

Theorem C46_cylinder_height :
  forall (M : R) (p q : vec R 3) (r : R),
    cylinder_height (@mkCylinder (RS M) (mkSegment p q) r) = rdist q p.
Proof. intros M p q r. unfold cylinder_height, segment_length. cbn [cy_segment g_source g_target]. now toR. Qed.
Print Assumptions C46_cylinder_height.

Theorem C46_cuboid_at_origin :
  forall (M : R) (d : vec R 3),
    nth 0 (cuboid_vertices (@cuboid_diag0 (RS M) d)) rzero = rzero /\
    nth 6 (cuboid_vertices (@cuboid_diag0 (RS M) d)) rzero = d.
Proof.
  intros M (dx & dy & dz & []). destruct (C46_cuboid_from_diagonal M (mk3 0 0 0) dx dy dz) as (_ & _ & _ & _ & E).
  split; [|etransitivity; [exact E|]; cbn; unfold mk3; repeat (apply f_equal2; [ring|]); reflexivity].
  unfold cuboid_diag0, cuboid_vertices. cbn. reflexivity.
Qed.
Print Assumptions C46_cuboid_at_origin.

Example C46_example : (mk3 0 0 0 : vec R 3) <> mk3 0 0 2 /\ rdist (mk3 3 0 0) (mk3 0 0 0) = 3 /\
  rdot (rsub (mk3 3 0 0) (mk3 0 0 0)) (rsub (mk3 0 0 2) (mk3 0 0 0)) = 0.
Proof.
  split; [|split].
  - intros E. apply (f_equal (fun v => comp 2 v)) in E. cbn in E. lra.
  - apply rdist_is; [lra|cbn; ring].
  - cbn; ring.
Qed.

(** ** circles: radius and normal checks *)
Theorem C46_circle_setters :
  forall (M : R) (L : Linal (RS M)), LinalR L ->
  forall (o2 : vec R 2) (c2 : circle2 (RS M)) (c3 : circle3 (RS M)) (r : R) (nrm : vec R 3),
    (0 <= r -> @circle2_make (RS M) true o2 r = Ok (mkCircle2 o2 r) /\
               circle2_set_radius true c2 r = Ok (mkCircle2 (c2_origin c2) r) /\
               circle3_set_radius true c3 r = Ok (mkCircle3 (c3_origin c3) r (c3_normal c3))) /\
    (r < 0 -> @circle2_make (RS M) true o2 r = Trap /\ circle2_set_radius true c2 r = Trap /\
              circle3_set_radius true c3 r = Trap) /\
    (rnorm nrm = 1 -> circle3_set_normal L true c3 nrm = Ok (mkCircle3 (c3_origin c3) (c3_radius c3) nrm)) /\
    (forall c', circle3_set_normal L true c3 nrm = Ok c' -> Rabs (rnorm nrm - 1) <= leps L).
Proof.
  intros M L HL o2 c2 c3 r nrm. pose proof (lr_eps L HL) as He.
  unfold circle2_make, circle2_set_radius, circle3_set_radius, circle3_set_normal. cbn [sleb RS s0 s1].
  rewrite vlength_R. split; [|split; [|split]].
  - intros H. rewrite (proj2 (Rleb_true 0 r) H). repeat split.
  - intros H. rewrite (proj2 (Rleb_false 0 r) H). repeat split.
  - intros ->. rewrite (lr_eq_0 L HL) by exact He. reflexivity.
  - intros c' H. destruct (isEq L (leps L) (rnorm nrm) 1) eqn:E; [|discriminate].
    apply (lr_eq_1 L HL); assumption.
Qed.
Print Assumptions C46_circle_setters.

Example C46_circle_example : 0 <= 2 /\ -1 < 0 /\ rnorm (mk3 0 0 1) = 1.
Proof. split; [lra|]. split; [lra|]. apply rnorm_is; [lra|cbn; ring]. Qed.
