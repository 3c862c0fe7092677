(** * Property theorems: intersections (C19-C23)

    The statements are about exact real arithmetic; [LinalR L] is the contract
    of the tolerance comparisons. *)

From Coq Require Import List Arith Bool Lia Reals Lra Psatz.
From Verif Require Import Scalar Linal Result SpecReal VecR VecLemmas ModelShapes ModelDistance ModelIntersect
  ProofDistance ProofDistance2 PropDistance ProofIntersect.
Import ListNotations.
Local Open Scope R_scope.

(** ** C19: two-dimensional lines and segments *)
Theorem C19_line2 :
  forall (M : R) (L : Linal (RS M)), LinalR L ->
  forall (eps : R), 0 <= eps -> forall (l r : line (RS M) 2),
    (forall p, intersect_line2 L eps l r = Some p ->
       on_line (l_origin l) (l_dir l) p /\ on_line (l_origin r) (l_dir r) p) /\
    (forall p, eps < Rabs (det2 (l_dir l) (l_dir r)) ->
       on_line (l_origin l) (l_dir l) p -> on_line (l_origin r) (l_dir r) p -> intersect_line2 L eps l r = Some p) /\
    (intersect_line2 L eps l r = None -> Rabs (det2 (l_dir l) (l_dir r)) <= eps) /\
    (det2 (l_dir l) (l_dir r) = 0 -> intersect_line2 L eps l r = None).
Proof.
  intros M L HL eps He l r. split; [|split; [|split]].
  - exact (line2_sound HL eps He l r).
  - exact (line2_complete HL eps He l r).
  - exact (line2_none HL eps He l r).
  - exact (line2_parallel HL eps He l r).
Qed.
Print Assumptions C19_line2.

Example C19_line2_example :
  intersect_line2 (raw_linal (RS 100) 0) 0 (@mkLine (RS 100) 2 (mk2 0 0) (mk2 1 0)) (@mkLine (RS 100) 2 (mk2 3 5) (mk2 0 1)) = Some (mk2 3 0).
Proof.
  apply (line2_complete (raw_linal_R 100 0 (Rle_refl 0)) 0 (Rle_refl 0)); cbn [l_origin l_dir].
  - unfold det2. cbn. unfold Rabs; destruct Rcase_abs; lra.
  - exists 3. veqs.
  - exists (-5). veqs.
Qed.

(** the parameters are within the tolerance of [0,1]; with tolerance 0 the
    point lies on both segments *)
Theorem C19_segment2_sound :
  forall (M : R) (L : Linal (RS M)), LinalR L ->
  forall (eps : R), 0 <= eps -> forall (dbg : bool) (f g : segment (RS M) 2) (p : vec R 2),
    intersect_segment2 L dbg eps f g = Ok (Some p) ->
    exists t s, - eps <= t <= 1 + eps /\ - eps <= s <= 1 + eps /\
      p = along (g_source f) (rsub (g_target f) (g_source f)) t /\
      p = along (g_source g) (rsub (g_target g) (g_source g)) s.
Proof. intros M L HL eps He. exact (segment2_sound HL eps He). Qed.
Print Assumptions C19_segment2_sound.

Theorem C19_segment2_complete :
  forall (M : R) (L : Linal (RS M)), LinalR L -> (forall n (v : vec R n), veq L v v = true) ->
  forall (eps : R), 0 <= eps -> forall (dbg : bool) (f g : segment (RS M) 2) (p : vec R 2),
    eps < Rabs (det2 (rsub (g_target f) (g_source f)) (rsub (g_target g) (g_source g))) ->
    on_segment (g_source f) (g_target f) p -> on_segment (g_source g) (g_target g) p ->
    intersect_segment2 L dbg eps f g = Ok (Some p).
Proof. intros M L HL Hv eps He dbg f g p. exact (segment2_complete HL eps He dbg f g p Hv). Qed.
Print Assumptions C19_segment2_complete.

(** the assertion that the two computed points agree never fires *)
Theorem C19_segment2_no_trap :
  forall (M : R) (L : Linal (RS M)), LinalR L -> (forall n (v : vec R n), veq L v v = true) ->
  forall (eps : R), 0 <= eps -> forall (dbg : bool) (f g : segment (RS M) 2),
    exists o, intersect_segment2 L dbg eps f g = Ok o.
Proof. intros M L HL Hv eps He dbg f g. exact (segment2_total HL eps He dbg f g Hv). Qed.
Print Assumptions C19_segment2_no_trap.

Lemma raw_veq_refl M e n (v : vec R n) : veq (raw_linal (RS M) e) v v = true.
Proof. apply vec_eqb_exact. reflexivity. Qed.

Example C19_segment2_example :
  intersect_segment2 (raw_linal (RS 100) 0) true 0 (@mkSegment (RS 100) 2 (mk2 0 0) (mk2 4 4))
    (@mkSegment (RS 100) 2 (mk2 0 4) (mk2 4 0)) = Ok (Some (mk2 2 2)).
Proof.
  apply (C19_segment2_complete 100 _ (raw_linal_R 100 0 (Rle_refl 0)) (raw_veq_refl 100 0) 0 (Rle_refl 0)); cbn [g_source g_target].
  - unfold det2. cbn. unfold Rabs; destruct Rcase_abs; lra.
  - exists (/ 2). split; [lra|]. veqs.
  - exists (/ 2). split; [lra|]. veqs.
Qed.

(** ** C20: three-dimensional lines *)
Theorem C20_line3_sound :
  forall (M : R) (L : Linal (RS M)), LinalR L ->
  forall (eps : R), 0 <= eps -> forall (l r : line (RS M) 3) (p : vec R 3),
    intersect_line3 L eps l r = Some p ->
    on_line (l_origin l) (l_dir l) p /\
    exists q, on_line (l_origin r) (l_dir r) q /\ rdist p q <= eps /\
      (forall a b, on_line (l_origin l) (l_dir l) a -> on_line (l_origin r) (l_dir r) b -> rdist p q <= rdist a b).
Proof. intros M L HL eps He. exact (line3_sound HL eps He). Qed.
Print Assumptions C20_line3_sound.

Theorem C20_line3_complete :
  forall (M : R) (L : Linal (RS M)), LinalR L ->
  forall (eps : R), 0 <= eps -> forall (l r : line (RS M) 3),
    (forall p, leps L < gram (l_dir l) (l_dir r) ->
       on_line (l_origin l) (l_dir l) p -> on_line (l_origin r) (l_dir r) p -> intersect_line3 L eps l r = Some p) /\
    (forall m, is_set_distance (on_line (l_origin l) (l_dir l)) (on_line (l_origin r) (l_dir r)) m -> eps < m ->
       intersect_line3 L eps l r = None).
Proof. intros M L HL eps He l r. split; [exact (line3_complete HL eps He l r)|exact (line3_skew HL eps He l r)]. Qed.
Print Assumptions C20_line3_complete.

Example C20_example :
  let l := @mkLine (RS 100) 3 (mk3 0 0 0) (mk3 1 0 0) in
  intersect_line3 (tol_linal (RS 100) (/ 10)) (/ 10) l (@mkLine (RS 100) 3 (mk3 2 3 0) (mk3 0 1 0)) = Some (mk3 2 0 0) /\
  intersect_line3 (tol_linal (RS 100) (/ 10)) (/ 10) l (@mkLine (RS 100) 3 (mk3 2 3 1) (mk3 0 1 0)) = None.
Proof.
  assert (He : 0 <= / 10) by lra. pose proof (tol_linal_R 100 (/ 10) He) as HL. cbn zeta. split.
  - apply (line3_complete HL (/ 10) He); cbn [l_origin l_dir].
    + unfold gram. cbn. lra.
    + exists 2. veqs.
    + exists (-3). veqs.
  - apply (line3_skew HL (/ 10) He _ _ 1); [|lra]. split; cbn [l_origin l_dir].
    + intros a b (t & ->) (s & ->). apply sq_le; [apply rdist_nonneg|]. rewrite rdist_sq. unfold along. cbn.
      match goal with |- _ <= ?a * ?a + (?b * ?b + (?c * ?c + 0)) =>
        assert (H1 := Rle_0_sqr a); assert (H2 := Rle_0_sqr b); assert (H3 : c * c = 1) by ring end.
      unfold Rsqr in *. lra.
    + exists (mk3 2 0 0), (mk3 2 0 1). split; [exists 2; veqs|]. split; [exists (-3); veqs|].
      apply rdist_is; [lra|]. cbn. ring.
Qed.

(** ** C21: three-dimensional segments and rays
    There is no test for skew carrier lines: at any distance h the two segments
    / the segment and the ray below are reported as meeting *)
Theorem C21_segment3_sound_refuted :
  forall (M h : R) (L : Linal (RS M)), LinalR L -> leps L < 1 -> 0 <= h ->
    let f := @mkSegment (RS M) 3 (mk3 0 0 0) (mk3 2 0 0) in
    let g := @mkSegment (RS M) 3 (mk3 1 (-1) h) (mk3 1 1 h) in
    intersect_segment3 L (leps L) f g = Some (mk3 1 0 0) /\
    is_set_distance (on_segment (g_source f) (g_target f)) (on_segment (g_source g) (g_target g)) h.
Proof. intros M h L HL. exact (segment3_skew HL h). Qed.
Print Assumptions C21_segment3_sound_refuted.

Theorem C21_segment_ray_sound_refuted :
  forall (M h : R) (L : Linal (RS M)), LinalR L -> leps L < 1 -> 0 <= h ->
    let g := @mkSegment (RS M) 3 (mk3 1 (-1) h) (mk3 1 1 h) in
    let r := @mkRay (RS M) 3 (mk3 0 0 0) (mk3 1 0 0) in
    intersect_segment_ray L (leps L) g r = Some (mk3 1 0 0) /\
    is_set_distance (on_segment (g_source g) (g_target g)) (on_ray (r_origin r) (r_dir r)) h.
Proof. intros M h L HL. exact (segment_ray_skew HL h). Qed.
Print Assumptions C21_segment_ray_sound_refuted.

(** what does hold: the point is on the first segment (up to the tolerance of
    the parameter), it is the point of the carrier line closest to the other
    carrier line, hence on both segments whenever the carrier lines meet *)
Theorem C21_segment3_sound_partial :
  forall (M : R) (L : Linal (RS M)), LinalR L ->
  forall (eps : R), 0 <= eps -> forall (f g : segment (RS M) 3) (p : vec R 3),
    intersect_segment3 L eps f g = Some p ->
    let fd := rsub (g_target f) (g_source f) in
    let gd := rsub (g_target g) (g_source g) in
    exists t s, - eps <= t <= 1 + eps /\ - eps <= s <= 1 + eps /\ p = along (g_source f) fd t /\
      (forall u v, rdist p (along (g_source g) gd s) <= rdist (along (g_source f) fd u) (along (g_source g) gd v)) /\
      (forall q, on_line (g_source f) fd q -> on_line (g_source g) gd q -> p = q /\ p = along (g_source g) gd s).
Proof. intros M L HL eps He. exact (segment3_coplanar HL eps He). Qed.
Print Assumptions C21_segment3_sound_partial.

Theorem C21_segment_ray_sound_partial :
  forall (M : R) (L : Linal (RS M)), LinalR L ->
  forall (eps : R), 0 <= eps -> forall (g : segment (RS M) 3) (r : ray (RS M) 3) (p : vec R 3),
    intersect_segment_ray L eps g r = Some p ->
    let gd := rsub (g_target g) (g_source g) in
    exists t s, - eps <= t <= 1 + eps /\ - eps <= s /\ p = along (r_origin r) (r_dir r) s /\
      (forall u v, rdist (along (g_source g) gd t) p <= rdist (along (g_source g) gd u) (along (r_origin r) (r_dir r) v)) /\
      (forall q, on_line (g_source g) gd q -> on_line (r_origin r) (r_dir r) q -> p = q /\ p = along (g_source g) gd t).
Proof. intros M L HL eps He. exact (segment_ray_coplanar HL eps He). Qed.
Print Assumptions C21_segment_ray_sound_partial.

(** a common point is found, unless the directions are nearly parallel *)
Theorem C21_complete :
  forall (M : R) (L : Linal (RS M)), LinalR L ->
  forall (eps : R), 0 <= eps ->
    (forall (f g : segment (RS M) 3) p, eps < gram (rsub (g_target f) (g_source f)) (rsub (g_target g) (g_source g)) ->
       on_segment (g_source f) (g_target f) p -> on_segment (g_source g) (g_target g) p ->
       intersect_segment3 L eps f g = Some p) /\
    (forall (g : segment (RS M) 3) (r : ray (RS M) 3) p, eps < gram (rsub (g_target g) (g_source g)) (r_dir r) ->
       on_segment (g_source g) (g_target g) p -> on_ray (r_origin r) (r_dir r) p ->
       intersect_segment_ray L eps g r = Some p).
Proof.
  intros M L HL eps He. split; [exact (segment3_complete HL eps He)|exact (segment_ray_complete HL eps He)].
Qed.
Print Assumptions C21_complete.

Example C21_example :
  intersect_segment3 (tol_linal (RS 100) (/ 10)) (/ 10) (@mkSegment (RS 100) 3 (mk3 0 0 1) (mk3 4 4 1))
    (@mkSegment (RS 100) 3 (mk3 0 4 1) (mk3 4 0 1)) = Some (mk3 2 2 1) /\
  intersect_segment_ray (tol_linal (RS 100) (/ 10)) (/ 10) (@mkSegment (RS 100) 3 (mk3 0 4 1) (mk3 4 0 1))
    (@mkRay (RS 100) 3 (mk3 2 0 1) (mk3 0 1 0)) = Some (mk3 2 2 1).
Proof.
  assert (He : 0 <= / 10) by lra. pose proof (tol_linal_R 100 (/ 10) He) as HL.
  destruct (C21_complete 100 _ HL (/ 10) He) as [H1 H2]. split.
  - apply H1; cbn [g_source g_target].
    + unfold gram. cbn. lra.
    + exists (/ 2). split; [lra|]. veqs.
    + exists (/ 2). split; [lra|]. veqs.
  - apply H2; cbn [g_source g_target r_origin r_dir].
    + unfold gram. cbn. lra.
    + exists (/ 2). split; [lra|]. veqs.
    + exists 2. split; [lra|]. veqs.
Qed.

(** ** C22: plane *)
Theorem C22_plane_line :
  forall (M : R) (L : Linal (RS M)), LinalR L ->
  forall (eps : R), 0 <= eps -> forall (p : plane (RS M)) (l : line (RS M) 3) (q : vec R 3),
    (intersect_plane_line L eps p l = Some q ->
       on_plane (p_origin p) (p_normal p) q /\ on_line (l_origin l) (l_dir l) q) /\
    (eps < Rabs (rdot (l_dir l) (p_normal p)) ->
       on_plane (p_origin p) (p_normal p) q -> on_line (l_origin l) (l_dir l) q ->
       intersect_plane_line L eps p l = Some q).
Proof.
  intros M L HL eps He p l q. split; [exact (plane_line_sound HL eps He p l q)|exact (plane_line_complete HL eps He p l q)].
Qed.
Print Assumptions C22_plane_line.

Theorem C22_plane_ray :
  forall (M : R) (L : Linal (RS M)), LinalR L ->
  forall (eps : R), 0 <= eps -> forall (p : plane (RS M)) (r : ray (RS M) 3),
    (forall q, intersect_plane_ray L eps p r = Some q ->
       on_plane (p_origin p) (p_normal p) q /\ on_ray (r_origin r) (r_dir r) q) /\
    (forall t, eps < Rabs (rdot (r_dir r) (p_normal p)) ->
       on_plane (p_origin p) (p_normal p) (along (r_origin r) (r_dir r) t) -> eps < t ->
       intersect_plane_ray L eps p r = Some (along (r_origin r) (r_dir r) t)).
Proof.
  intros M L HL eps He p r. split; [exact (plane_ray_sound HL eps He p r)|exact (plane_ray_complete HL eps He p r)].
Qed.
Print Assumptions C22_plane_ray.

Theorem C22_plane_segment :
  forall (M : R) (L : Linal (RS M)), LinalR L ->
  forall (eps : R), 0 <= eps -> forall (p : plane (RS M)) (g : segment (RS M) 3),
    (forall q, intersect_plane_segment L eps p g = Some q ->
       on_plane (p_origin p) (p_normal p) q /\
       exists t, 0 < t <= 1 + eps /\ q = along (g_source g) (rsub (g_target g) (g_source g)) t) /\
    (forall t, eps < Rabs (rdot (rsub (g_target g) (g_source g)) (p_normal p)) ->
       on_plane (p_origin p) (p_normal p) (along (g_source g) (rsub (g_target g) (g_source g)) t) -> eps < t <= 1 ->
       intersect_plane_segment L eps p g = Some (along (g_source g) (rsub (g_target g) (g_source g)) t)).
Proof.
  intros M L HL eps He p g.
  split; [exact (plane_segment_sound HL eps He p g)|exact (plane_segment_complete HL eps He p g)].
Qed.
Print Assumptions C22_plane_segment.

(** A ray or segment that starts on the plane is never reported, although the
    end of a segment on the plane is *)
Theorem C22_source_on_plane_refuted :
  forall (M : R) (L : Linal (RS M)), LinalR L ->
  forall (eps : R), 0 <= eps -> forall (p : plane (RS M)),
    (forall r, on_plane (p_origin p) (p_normal p) (r_origin r) -> intersect_plane_ray L eps p r = None) /\
    (forall g, on_plane (p_origin p) (p_normal p) (g_source g) -> intersect_plane_segment L eps p g = None) /\
    (forall g, eps < 1 -> eps < Rabs (rdot (rsub (g_target g) (g_source g)) (p_normal p)) ->
       on_plane (p_origin p) (p_normal p) (g_target g) -> intersect_plane_segment L eps p g = Some (g_target g)).
Proof. intros M L HL eps He p. exact (plane_source HL eps He p). Qed.
Print Assumptions C22_source_on_plane_refuted.

Example C22_example :
  let p := @mkPlane (RS 100) (mk3 0 0 1) (mk3 0 0 1) in
  let L := tol_linal (RS 100) (/ 10) in
  intersect_plane_line L (/ 10) p (@mkLine (RS 100) 3 (mk3 5 5 5) (mk3 0 0 1)) = Some (mk3 5 5 1) /\
  intersect_plane_ray L (/ 10) p (@mkRay (RS 100) 3 (mk3 5 5 5) (mk3 0 0 (-1))) = Some (mk3 5 5 1) /\
  intersect_plane_segment L (/ 10) p (@mkSegment (RS 100) 3 (mk3 0 0 0) (mk3 0 0 4)) = Some (mk3 0 0 1) /\
  intersect_plane_ray L (/ 10) p (@mkRay (RS 100) 3 (mk3 5 5 1) (mk3 0 0 1)) = None.
Proof.
  assert (He : 0 <= / 10) by lra. pose proof (tol_linal_R 100 (/ 10) He) as HL. cbn zeta. split; [|split; [|split]].
  - apply (plane_line_complete HL (/ 10) He); cbn [p_origin p_normal l_origin l_dir].
    + cbn. unfold Rabs; destruct Rcase_abs; lra.
    + unfold on_plane. cbn. ring.
    + exists (-4). veqs.
  - replace (mk3 5 5 1) with (along (mk3 5 5 5) (mk3 0 0 (-1)) 4) by veqs.
    apply (plane_ray_complete HL (/ 10) He (@mkPlane (RS 100) (mk3 0 0 1) (mk3 0 0 1)) (@mkRay (RS 100) 3 (mk3 5 5 5) (mk3 0 0 (-1))));
      cbn [p_origin p_normal r_origin r_dir]; [cbn; unfold Rabs; destruct Rcase_abs; lra| |lra].
    unfold on_plane, along. cbn. ring.
  - replace (mk3 0 0 1) with (along (mk3 0 0 0) (rsub (mk3 0 0 4) (mk3 0 0 0)) (/ 4)) at 3 by veqs.
    apply (plane_segment_complete HL (/ 10) He (@mkPlane (RS 100) (mk3 0 0 1) (mk3 0 0 1)) (@mkSegment (RS 100) 3 (mk3 0 0 0) (mk3 0 0 4)));
      cbn [p_origin p_normal g_source g_target]; [cbn; unfold Rabs; destruct Rcase_abs; lra| |lra].
    unfold on_plane, along. cbn. field.
  - apply (plane_source HL (/ 10) He). cbn. unfold on_plane. cbn. ring.
Qed.

(** ** C23: sphere
    [m] is the distance of the centre from the carrier line.  Beyond the
    tolerance band the points returned are exactly the common points (of the
    object, up to the tolerance of the parameter) *)
Theorem C23_sphere_line :
  forall (M : R) (L : Linal (RS M)), LinalR L ->
  forall (eps : R), 0 <= eps -> forall (s : sphere (RS M)) (l : line (RS M) 3) (m : R),
    0 <= s_radius s -> rnorm (l_dir l) = 1 ->
    is_set_distance (fun p => p = s_origin s) (on_line (l_origin l) (l_dir l)) m ->
    (eps < 4 * (s_radius s * s_radius s - m * m) ->
       forall p, hits (intersect_sphere_line L eps s l) p <->
         on_sphere (s_origin s) (s_radius s) p /\ on_line (l_origin l) (l_dir l) p) /\
    (m = s_radius s ->
       forall p, hits (intersect_sphere_line L eps s l) p <->
         on_sphere (s_origin s) (s_radius s) p /\ on_line (l_origin l) (l_dir l) p) /\
    (4 * (s_radius s * s_radius s - m * m) < - eps -> intersect_sphere_line L eps s l = (None, None)) /\
    (forall p, hits (intersect_sphere_line L eps s l) p ->
       on_line (l_origin l) (l_dir l) p /\
       (on_sphere (s_origin s) (s_radius s) p \/
        Rabs (rdist p (s_origin s) * rdist p (s_origin s) - s_radius s * s_radius s) <= eps / 4)).
Proof. intros M L HL eps He. exact (sphere_line_main HL eps He). Qed.
Print Assumptions C23_sphere_line.

Theorem C23_sphere_ray :
  forall (M : R) (L : Linal (RS M)), LinalR L ->
  forall (eps : R), 0 <= eps -> forall (s : sphere (RS M)) (r : ray (RS M) 3) (m : R),
    0 <= s_radius s -> rnorm (r_dir r) = 1 ->
    is_set_distance (fun p => p = s_origin s) (on_line (r_origin r) (r_dir r)) m ->
    (eps < 4 * (s_radius s * s_radius s - m * m) \/ m = s_radius s ->
       (forall p, hits (intersect_sphere_ray L eps s r) p ->
          on_sphere (s_origin s) (s_radius s) p /\ exists t, - eps <= t /\ p = along (r_origin r) (r_dir r) t) /\
       (forall p, on_sphere (s_origin s) (s_radius s) p -> on_ray (r_origin r) (r_dir r) p ->
          hits (intersect_sphere_ray L eps s r) p)) /\
    (4 * (s_radius s * s_radius s - m * m) < - eps -> intersect_sphere_ray L eps s r = (None, None)) /\
    (forall p, hits (intersect_sphere_ray L eps s r) p ->
       (exists t, - eps <= t /\ p = along (r_origin r) (r_dir r) t) /\
       (on_sphere (s_origin s) (s_radius s) p \/
        Rabs (rdist p (s_origin s) * rdist p (s_origin s) - s_radius s * s_radius s) <= eps / 4)).
Proof. intros M L HL eps He. exact (sphere_ray_main HL eps He). Qed.
Print Assumptions C23_sphere_ray.

(** missing for segments: the band of (nearly) tangent segments, where the
    claim fails, see below *)
Theorem C23_sphere_segment_partial :
  forall (M : R) (L : Linal (RS M)), LinalR L ->
  forall (eps : R), 0 <= eps -> forall (s : sphere (RS M)) (g : segment (RS M) 3) (m : R),
    let d := rsub (g_target g) (g_source g) in
    0 <= s_radius s -> d <> rzero ->
    is_set_distance (fun p => p = s_origin s) (on_line (g_source g) d) m ->
    (eps < 4 * rdot d d * (s_radius s * s_radius s - m * m) ->
       (forall p, hits (intersect_sphere_segment L eps s g) p ->
          on_sphere (s_origin s) (s_radius s) p /\ exists t, - eps <= t <= 1 + eps /\ p = along (g_source g) d t) /\
       (forall p, on_sphere (s_origin s) (s_radius s) p -> on_segment (g_source g) (g_target g) p ->
          hits (intersect_sphere_segment L eps s g) p)) /\
    (4 * rdot d d * (s_radius s * s_radius s - m * m) < - eps -> intersect_sphere_segment L eps s g = (None, None)).
Proof. intros M L HL eps He. exact (sphere_segment_main HL eps He). Qed.
Print Assumptions C23_sphere_segment_partial.

(** a tangent segment of length 4: the point of contact is in its middle, and
    nothing is returned; a tangent segment of length 1/2: the point returned is
    farther than 1/5 from the sphere *)
Theorem C23_tangent_segment_missed_refuted :
  forall (M : R) (L : Linal (RS M)), LinalR L -> leps L < 1 ->
    let s := @mkSphere (RS M) (mk3 0 0 0) 1 in
    let g := @mkSegment (RS M) 3 (mk3 (-2) 1 0) (mk3 2 1 0) in
    on_sphere (s_origin s) (s_radius s) (mk3 0 1 0) /\ on_segment (g_source g) (g_target g) (mk3 0 1 0) /\
    intersect_sphere_segment L (leps L) s g = (None, None).
Proof. intros M L HL. exact (tangent_missed HL). Qed.
Print Assumptions C23_tangent_segment_missed_refuted.

Theorem C23_tangent_segment_sound_refuted :
  forall (M : R) (L : Linal (RS M)), LinalR L ->
    let s := @mkSphere (RS M) (mk3 0 0 0) (/ 100) in
    let g := @mkSegment (RS M) 3 (mk3 (- / 4) (/ 100) 0) (mk3 (/ 4) (/ 100) 0) in
    exists p, hits (intersect_sphere_segment L (leps L) s g) p /\
      rdist p (s_origin s) > s_radius s + / 5.
Proof. intros M L HL. exact (tangent_unsound HL). Qed.
Print Assumptions C23_tangent_segment_sound_refuted.

Lemma axis_distance : is_set_distance (fun p => p = mk3 0 0 0) (on_line (mk3 (-3) 0 0) (mk3 1 0 0)) 0.
Proof.
  split; [intros; apply rdist_nonneg|]. exists (mk3 0 0 0), (mk3 0 0 0). split; [reflexivity|].
  split; [exists 3; veqs|apply rdist_self].
Qed.

Example C23_example :
  let s := @mkSphere (RS 100) (mk3 0 0 0) 1 in
  let L := tol_linal (RS 100) (/ 10) in
  hits (intersect_sphere_line L (/ 10) s (@mkLine (RS 100) 3 (mk3 (-3) 0 0) (mk3 1 0 0))) (mk3 (-1) 0 0) /\
  hits (intersect_sphere_ray L (/ 10) s (@mkRay (RS 100) 3 (mk3 (-3) 0 0) (mk3 1 0 0))) (mk3 1 0 0) /\
  hits (intersect_sphere_segment L (/ 10) s (@mkSegment (RS 100) 3 (mk3 (-3) 0 0) (mk3 0 0 0))) (mk3 (-1) 0 0) /\
  ~ hits (intersect_sphere_segment L (/ 10) s (@mkSegment (RS 100) 3 (mk3 (-3) 0 0) (mk3 0 0 0))) (mk3 1 0 0).
Proof.
  assert (He : 0 <= / 10) by lra. pose proof (tol_linal_R 100 (/ 10) He) as HL. cbn zeta.
  assert (Hn : rnorm (mk3 1 0 0) = 1) by (apply rnorm_is; [lra|cbn; ring]).
  assert (H1 : on_sphere (mk3 0 0 0) 1 (mk3 (-1) 0 0)) by (apply rdist_is; [lra|cbn; ring]).
  assert (H2 : on_sphere (mk3 0 0 0) 1 (mk3 1 0 0)) by (apply rdist_is; [lra|cbn; ring]).
  assert (H0 : 0 <= 1) by lra.
  assert (Hb : / 10 < 4 * (1 * 1 - 0 * 0)) by lra.
  split; [|split].
  - destruct (C23_sphere_line 100 _ HL (/ 10) He (@mkSphere (RS 100) (mk3 0 0 0) 1)
      (@mkLine (RS 100) 3 (mk3 (-3) 0 0) (mk3 1 0 0)) 0 H0 Hn axis_distance) as [H _].
    apply (H Hb). split; [exact H1|exists 2; veqs].
  - destruct (C23_sphere_ray 100 _ HL (/ 10) He (@mkSphere (RS 100) (mk3 0 0 0) 1)
      (@mkRay (RS 100) 3 (mk3 (-3) 0 0) (mk3 1 0 0)) 0 H0 Hn axis_distance) as [H _].
    apply (H (or_introl Hb)); [exact H2|exists 4; split; [lra|veqs]].
  - destruct (C23_sphere_segment_partial 100 _ HL (/ 10) He (@mkSphere (RS 100) (mk3 0 0 0) 1)
      (@mkSegment (RS 100) 3 (mk3 (-3) 0 0) (mk3 0 0 0)) 0) as [H _]; cbn [s_origin s_radius g_source g_target].
    + exact H0.
    + intros E. apply (f_equal fst) in E. cbn in E. lra.
    + split; [intros; apply rdist_nonneg|]. exists (mk3 0 0 0), (mk3 0 0 0). split; [reflexivity|].
      split; [exists 1; veqs|apply rdist_self].
    + cbn [s_origin s_radius g_source g_target] in H. destruct H as [Hs Hc]; [cbn; lra|]. split.
      * apply Hc; [exact H1|]. exists (2 / 3). split; [lra|]. veqs.
      * intros Hh. destruct (Hs _ Hh) as [_ (t & Ht & E)]. apply (f_equal fst) in E. cbn in E. lra.
Qed.
