(** * Property theorems: distances (C12-C18)

    The statements are about exact real arithmetic; [LinalR L] is the contract
    of the tolerance comparisons. *)

From Coq Require Import List Arith Bool Lia Reals Lra Psatz.
From Verif Require Import Scalar Linal Result SpecReal VecR VecLemmas ModelShapes ModelDistance ProofDistance ProofDistance2.
Import ListNotations.
Local Open Scope R_scope.

Lemma rnorm_is {n} (u : vec R n) r : 0 <= r -> rdot u u = r * r -> rnorm u = r.
Proof. intros Hr H. apply sq_eq; [apply rnorm_nonneg|exact Hr|]. now rewrite rnorm_sq. Qed.
Lemma rdist_is {n} (u v : vec R n) r : 0 <= r -> rdot (rsub u v) (rsub u v) = r * r -> rdist u v = r.
Proof. apply rnorm_is. Qed.

Lemma set_distance_unique {n} (A B : vec R n -> Prop) m m' :
  is_set_distance A B m -> is_set_distance A B m' -> m = m'.
Proof.
  intros [H1 (a & b & Ha & Hb & E)] [H1' (a' & b' & Ha' & Hb' & E')].
  apply Rle_antisym; [rewrite <- E'; auto|rewrite <- E; auto].
Qed.
Lemma set_distance_sym {n} (A B : vec R n -> Prop) m :
  is_set_distance A B m -> is_set_distance B A m.
Proof.
  intros [H1 (a & b & Ha & Hb & E)]. split.
  - intros x y Hx Hy. rewrite rdist_sym. auto.
  - exists b, a. rewrite rdist_sym. auto.
Qed.

Lemma tol_zero_t M e x : 0 <= x <= e -> isZero (tol_linal (RS M) e) (leps (tol_linal (RS M) e)) x = true.
Proof. intros H. cbn. apply Rleb_true. rewrite Rabs_pos_eq; lra. Qed.
Lemma tol_zero_f M e x : 0 <= e < x -> isZero (tol_linal (RS M) e) (leps (tol_linal (RS M) e)) x = false.
Proof. intros H. cbn. apply Rleb_false. rewrite Rabs_pos_eq; lra. Qed.

(** equality of concrete vectors *)
Ltac veqs := unfold along, mk2, mk3; cbn; repeat (apply f_equal2; [first [ring | field; lra | lra]|]); reflexivity.

(** ** C12: the parameters are the unique minimiser of the distance of the two
    lines; nothing is returned only for nearly parallel directions *)
Theorem C12_closest_params_optimal :
  forall (M : R) (L : Linal (RS M)), LinalR L ->
  forall (eps : R) (lo ld ro rd : vec R 3), 0 <= eps ->
    (forall t s, closest_params L eps lo ld ro rd = Some (t, s) ->
       (forall u v, rdist (along lo ld t) (along ro rd s) <= rdist (along lo ld u) (along ro rd v)) /\
       (forall u v, rdist (along lo ld u) (along ro rd v) <= rdist (along lo ld t) (along ro rd s) -> u = t /\ v = s)) /\
    (closest_params L eps lo ld ro rd = None -> gram ld rd <= eps) /\
    (gram ld rd = 0 -> closest_params L eps lo ld ro rd = None).
Proof.
  intros M L HL eps lo ld ro rd He. split; [|split].
  - intros t s H. split; [exact (closest_params_min HL eps lo ld ro rd t s He H)|
                          exact (closest_params_unique HL eps lo ld ro rd t s He H)].
  - exact (closest_params_none HL eps lo ld ro rd He).
  - exact (closest_params_parallel HL eps lo ld ro rd He).
Qed.
Print Assumptions C12_closest_params_optimal.

Example C12_example :
  closest_params (tol_linal (RS 100) (/ 10)) (/ 10) (mk3 0 0 0) (mk3 1 0 0) (mk3 2 3 1) (mk3 0 1 0) = Some (2, -3).
Proof.
  rewrite (closest_params_gram (M := 100)). unfold gram. cbn.
  rewrite (proj2 (Rleb_false _ _)) by (unfold Rabs; destruct Rcase_abs; lra).
  f_equal. f_equal; field.
Qed.

(** ** C13 *)
Theorem C13_point_line :
  forall (M : R) (n : nat) (v : vec R n) (l : line (RS M) n), l_dir l <> rzero ->
    is_set_distance (fun p => p = v) (on_line (l_origin l) (l_dir l)) (dist_point_line v l).
Proof. exact @dist_point_line_spec. Qed.
Print Assumptions C13_point_line.

(** the comparison with the origin of the ray uses the tolerance: the result
    exceeds the distance by at most eps / |direction| *)
Theorem C13_point_ray :
  forall (M : R) (L : Linal (RS M)), LinalR L ->
  forall (n : nat) (v : vec R n) (r : ray (RS M) n), r_dir r <> rzero ->
    exists m, is_set_distance (fun p => p = v) (on_ray (r_origin r) (r_dir r)) m /\
      m <= dist_ray_point L r v <= m + leps L / rnorm (r_dir r).
Proof. exact @dist_ray_point_spec. Qed.
Print Assumptions C13_point_ray.

Theorem C13_point_ray_exact :
  forall (M : R) (L : Linal (RS M)), LinalR L -> leps L = 0 ->
  forall (n : nat) (v : vec R n) (r : ray (RS M) n), r_dir r <> rzero ->
    is_set_distance (fun p => p = v) (on_ray (r_origin r) (r_dir r)) (dist_ray_point L r v).
Proof.
  intros M L HL He n v r Hd. destruct (C13_point_ray M L HL n v r Hd) as (m & Hm & H).
  rewrite He in H. unfold Rdiv in H. rewrite Rmult_0_l, Rplus_0_r in H.
  now replace (dist_ray_point L r v) with m by lra.
Qed.
Print Assumptions C13_point_ray_exact.

Theorem C13_point_plane :
  forall (M : R) (v : vec R 3) (p : plane (RS M)), rnorm (p_normal p) = 1 ->
    is_set_distance (fun q => q = v) (on_plane (p_origin p) (p_normal p)) (dist_plane_point p v).
Proof. exact @dist_plane_point_spec. Qed.
Print Assumptions C13_point_plane.

(** consequences: non-negative, and zero exactly on the object *)
Theorem C13_zero_iff_on :
  forall (M : R) (n : nat) (v : vec R n) (l : line (RS M) n), l_dir l <> rzero ->
    0 <= dist_point_line v l /\ (dist_point_line v l = 0 <-> on_line (l_origin l) (l_dir l) v).
Proof.
  intros M n v l Hd. destruct (C13_point_line M n v l Hd) as [Hmin (a & b & -> & Hb & E)].
  split; [rewrite <- E; apply rdist_nonneg|]. split.
  - intros H. rewrite H in E. apply rdist_zero in E. now subst b.
  - intros H. specialize (Hmin v v eq_refl H). rewrite rdist_self in Hmin.
    rewrite <- E in *. pose proof (rdist_nonneg v b). lra.
Qed.
Print Assumptions C13_zero_iff_on.

Example C13_example :
  dist_point_line (mk2 3 4) (@mkLine (RS 100) 2 (mk2 0 0) (mk2 1 0)) = 4 /\
  dist_ray_point (tol_linal (RS 100) (/ 10)) (@mkRay (RS 100) 2 (mk2 0 0) (mk2 1 0)) (mk2 (-3) 4) = 5 /\
  dist_plane_point (@mkPlane (RS 100) (mk3 0 0 2) (mk3 0 0 1)) (mk3 7 8 0) = 2 /\
  rnorm (mk3 0 0 1) = 1 /\ (mk2 1 0 : vec R 2) <> rzero.
Proof.
  split; [|split; [|split; [|split]]].
  - unfold dist_point_line. rewrite vlength_R. apply rnorm_is; [lra|]. cbn. field.
  - unfold dist_ray_point. rdec. apply sq_eq; [apply sqrt_pos|lra|]. rewrite sqrt_sqrt by lra. ring.
  - unfold dist_plane_point. cbn. rewrite Rabs_pos_eq; lra.
  - apply rnorm_is; [lra|]. cbn. ring.
  - intros H. apply (f_equal fst) in H. cbn in H. lra.
Qed.

(** ** C14: segment and point.  The projection parameter is divided by the
    length of the segment instead of its square. *)

(** exact when the two divisions give the same clamped parameter, and only then *)
Theorem C14_segment_point_characterisation :
  forall (M : R) (n : nat) (g : segment (RS M) n) (v : vec R n),
    let d := rsub (g_target g) (g_source g) in
    let z := rdot (rsub v (g_source g)) d in
    d <> rzero ->
    (is_set_distance (fun p => p = v) (on_segment (g_source g) (g_target g)) (dist_segment_point g v) <->
     Rmin (Rmax (z / rnorm d) 0) 1 = Rmin (Rmax (z / rdot d d) 0) 1).
Proof. exact @dist_segment_point_iff. Qed.
Print Assumptions C14_segment_point_characterisation.

(** the result is right for unit-length segments, and for points that project
    outside the segment *)
Theorem C14_segment_point_partial :
  forall (M : R) (n : nat) (g : segment (RS M) n) (v : vec R n),
    let d := rsub (g_target g) (g_source g) in
    let z := rdot (rsub v (g_source g)) d in
    (* always the distance to some point of the segment, hence an upper bound *)
    (exists p, on_segment (g_source g) (g_target g) p /\ dist_segment_point g v = rdist v p) /\
    (rnorm d = 1 ->
     is_set_distance (fun p => p = v) (on_segment (g_source g) (g_target g)) (dist_segment_point g v)) /\
    (d <> rzero -> z <= 0 \/ (rnorm d <= z /\ rdot d d <= z) ->
     is_set_distance (fun p => p = v) (on_segment (g_source g) (g_target g)) (dist_segment_point g v)).
Proof.
  intros M n g v d z. split; [apply dist_segment_point_upper|].
  split; [apply dist_segment_point_unit|apply dist_segment_point_outside].
Qed.
Print Assumptions C14_segment_point_partial.

Example C14_partial_example :
  let g := @mkSegment (RS 100) 2 (mk2 0 0) (mk2 1 0) in
  rnorm (rsub (g_target g) (g_source g)) = 1 /\ dist_segment_point g (mk2 (/ 2) 3) = 3.
Proof.
  cbn zeta. assert (H1 : rnorm (rsub (mk2 1 0) (mk2 0 0)) = 1) by (apply rnorm_is; [lra|cbn; ring]).
  split; [exact H1|]. rewrite (dist_segment_point_R (M := 100)). cbn [g_source g_target].
  rewrite H1. apply rdist_is; [lra|].
  replace (rdot (rsub (mk2 (/ 2) 3) (mk2 0 0)) (rsub (mk2 1 0) (mk2 0 0))) with (/ 2) by (cbn; ring).
  unfold clamp01. rewrite Rmax_left, Rmin_left by lra. cbn. field.
Qed.

(** The full claim fails: segment (0,0)-(2,0), point (1,1), true distance 1 *)
Theorem C14_segment_point_refuted :
  exists (g : segment (RS 100) 2) (v p : vec R 2),
    on_segment (g_source g) (g_target g) p /\ rdist v p = 1 /\ dist_segment_point g v = sqrt 2.
Proof.
  exists (@mkSegment (RS 100) 2 (mk2 0 0) (mk2 2 0)), (mk2 1 1), (mk2 1 0).
  split; [|split].
  - exists (/ 2). split; [lra|]. veqs.
  - apply rdist_is; [lra|]. cbn. ring.
  - rewrite (dist_segment_point_R (M := 100)). cbn [g_source g_target].
    assert (Hn : rnorm (rsub (mk2 2 0) (mk2 0 0)) = 2) by (apply rnorm_is; [lra|cbn; ring]).
    rewrite Hn.
    replace (rdot (rsub (mk2 1 1) (mk2 0 0)) (rsub (mk2 2 0) (mk2 0 0)) / 2) with 1 by (cbn; field).
    unfold clamp01. rewrite Rmax_left, Rmin_left by lra.
    unfold rdist, rnorm. apply (f_equal sqrt). cbn. ring.
Qed.
Print Assumptions C14_segment_point_refuted.

(** a segment of length zero gives NaN (arithmetic with NaN and infinities) *)
Theorem C14_degenerate_refuted :
  forall (M : R) (p v : vec R 2),
    let inj (u : vec R 2) : vec xR 2 := vmap Fin u in
    dist_segment_point (@mkSegment (XS M) 2 (inj p) (inj p)) (inj v) = XNaN.
Proof.
  intros M [a [b []]] [x [y []]]. cbn zeta. unfold dist_segment_point, vlength, std_min, std_max. cbn.
  replace (a - a) with 0 by ring. replace (b - b) with 0 by ring.
  replace ((0 * 0) + ((0 * 0) + 0)) with 0 by ring.
  destruct (Rlt_dec 0 0) as [H|_]; [lra|]. rewrite sqrt_0. cbn.
  destruct (Req_EM_T 0 0) as [_|H]; [|lra]. reflexivity.
Qed.
Print Assumptions C14_degenerate_refuted.

(** ** C15: line and line.  The absolute value of the result is the distance,
    for lines that are exactly parallel or not nearly parallel *)
Theorem C15_line_line_partial :
  forall (M : R) (L : Linal (RS M)), LinalR L -> forall (dbg : bool) (a b : line (RS M) 3),
    rnorm (l_dir a) = 1 -> rnorm (l_dir b) = 1 ->
    gram (l_dir a) (l_dir b) = 0 \/ leps L * leps L < gram (l_dir a) (l_dir b) ->
    exists r, dist_line_line L dbg a b = Ok r /\
      is_set_distance (on_line (l_origin a) (l_dir a)) (on_line (l_origin b) (l_dir b)) (Rabs r).
Proof. exact @dist_line_line_spec. Qed.
Print Assumptions C15_line_line_partial.

Theorem C15_line_line_symmetric :
  forall (M : R) (L : Linal (RS M)), LinalR L -> forall (dbg : bool) (a b : line (RS M) 3),
    rnorm (l_dir a) = 1 -> rnorm (l_dir b) = 1 ->
    gram (l_dir a) (l_dir b) = 0 \/ leps L * leps L < gram (l_dir a) (l_dir b) ->
    exists r r', dist_line_line L dbg a b = Ok r /\ dist_line_line L dbg b a = Ok r' /\ Rabs r = Rabs r'.
Proof.
  intros M L HL dbg a b Ha Hb Hg.
  destruct (C15_line_line_partial M L HL dbg a b Ha Hb Hg) as (r & E & Hr).
  assert (Hs : gram (l_dir b) (l_dir a) = gram (l_dir a) (l_dir b)).
  { unfold gram. rewrite (rdot_comm (l_dir b) (l_dir a)). ring. }
  rewrite <- Hs in Hg.
  destruct (C15_line_line_partial M L HL dbg b a Hb Ha Hg) as (r' & E' & Hr').
  exists r, r'. split; [exact E|]. split; [exact E'|].
  apply (set_distance_unique _ _ _ _ Hr). now apply set_distance_sym.
Qed.
Print Assumptions C15_line_line_symmetric.

(** the result can be negative *)
Theorem C15_line_line_refuted :
  forall (M e : R) (dbg : bool), 0 <= e < 1 ->
  exists a b : line (RS M) 3, rnorm (l_dir a) = 1 /\ rnorm (l_dir b) = 1 /\
    dist_line_line (tol_linal (RS M) e) dbg a b = Ok (-1).
Proof.
  intros M e dbg He.
  exists (@mkLine (RS M) 3 (mk3 0 0 0) (mk3 1 0 0)), (@mkLine (RS M) 3 (mk3 0 0 1) (mk3 0 1 0)).
  assert (H1 : rnorm (mk3 1 0 0) = 1) by (apply rnorm_is; [lra|cbn; ring]).
  assert (H2 : rnorm (mk3 0 1 0) = 1) by (apply rnorm_is; [lra|cbn; ring]).
  assert (H3 : rnorm (@cross (RS M) (mk3 1 0 0) (mk3 0 1 0)) = 1) by (apply rnorm_is; [lra|cbn; ring]).
  split; [exact H1|]. split; [exact H2|].
  unfold dist_line_line. cbn [l_dir l_origin]. rewrite !vlength_R, H1, H2, H3.
  pose proof (tol_linal_R M e (proj1 He)) as HL.
  rewrite !geo_assert_true by (apply (lr_eq_0 _ HL); apply He). cbn [bind].
  rewrite tol_zero_f by nra.
  f_equal. cbn. field.
Qed.
Print Assumptions C15_line_line_refuted.

(** near-parallel lines: intersecting lines with an arbitrarily large reported distance *)
Theorem C15_near_parallel_refuted :
  forall (M e K : R) (dbg : bool), 0 < e -> 0 <= K ->
  exists (a b : line (RS M) 3) (p : vec R 3) (r : R),
    rnorm (l_dir a) = 1 /\ rnorm (l_dir b) = 1 /\
    on_line (l_origin a) (l_dir a) p /\ on_line (l_origin b) (l_dir b) p /\
    dist_line_line (tol_linal (RS M) e) dbg a b = Ok r /\ K < r.
Proof.
  intros M e K dbg He HK. pose proof (tol_linal_R M e (Rlt_le _ _ He)) as HL.
  set (m := Rmin (e / 2) (/ 2)).
  assert (Hm : 0 < m /\ m <= e / 2 /\ m <= / 2).
  { unfold m. split; [apply Rmin_glb_lt; lra|]. split; [apply Rmin_l|apply Rmin_r]. }
  clearbody m. assert (Hq : 1 <= 1 + m * m) by nra.
  set (H := 2 * (K + 1)).
  set (bx := (1 - m * m) / (1 + m * m)). set (by_ := - (2 * m) / (1 + m * m)).
  assert (Hu : bx * bx + by_ * by_ = 1) by (unfold bx, by_; field; lra).
  assert (Hbx : 3 / 5 <= bx).
  { unfold bx. apply Rmult_le_reg_r with (1 + m * m); [lra|]. replace ((1 - m * m) / (1 + m * m) * (1 + m * m)) with (1 - m * m) by (field; lra). nra. }
  assert (Hby : by_ < 0 /\ - e <= by_).
  { unfold by_. split.
    - apply Rmult_lt_reg_r with (1 + m * m); [lra|]. replace (- (2 * m) / (1 + m * m) * (1 + m * m)) with (- (2 * m)) by (field; lra). lra.
    - apply Rmult_le_reg_r with (1 + m * m); [lra|]. replace (- (2 * m) / (1 + m * m) * (1 + m * m)) with (- (2 * m)) by (field; lra). nra. }
  clearbody bx by_.
  exists (@mkLine (RS M) 3 (mk3 0 0 0) (mk3 1 0 0)), (@mkLine (RS M) 3 (mk3 0 H 0) (mk3 bx by_ 0)).
  exists (mk3 (- H / by_ * bx) 0 0). eexists.
  assert (H1 : rnorm (mk3 1 0 0) = 1) by (apply rnorm_is; [lra|cbn; ring]).
  assert (H2 : rnorm (mk3 bx by_ 0) = 1) by (apply rnorm_is; [lra|cbn; lra]).
  assert (H3 : rnorm (@cross (RS M) (mk3 1 0 0) (mk3 bx by_ 0)) = - by_) by (apply rnorm_is; [lra|cbn; ring]).
  assert (Hd : (mk3 bx by_ 0 : vec R 3) <> rzero).
  { intros E. apply (f_equal fst) in E. cbn in E. lra. }
  assert (H4 : dist_point_line (mk3 0 0 0) (@mkLine (RS M) 3 (mk3 0 H 0) (mk3 bx by_ 0)) = H * bx).
  { rewrite dist_point_line_R by exact Hd. cbn [l_origin l_dir]. apply rdist_is; [unfold H; nra|].
    assert (Hdd : rdot (mk3 bx by_ 0) (mk3 bx by_ 0) = 1) by (cbn; lra). rewrite Hdd.
    assert (Hz : rdot (rsub (mk3 0 0 0) (mk3 0 H 0)) (mk3 bx by_ 0) / 1 = - H * by_) by (cbn; field). rewrite Hz.
    cbn. replace (bx * bx) with (1 - by_ * by_) by lra.
    replace (H * bx * (H * bx)) with (H * H * (bx * bx)) by ring. replace (bx * bx) with (1 - by_ * by_) by lra.
    replace ((0 - (0 + - H * by_ * bx)) * (0 - (0 + - H * by_ * bx))) with (H * H * (by_ * by_) * (bx * bx)) by ring.
    replace (bx * bx) with (1 - by_ * by_) by lra. ring. }
  split; [exact H1|]. split; [exact H2|]. split; [|split; [|split]].
  - exists (- H / by_ * bx). veqs.
  - exists (- H / by_). veqs.
  - unfold dist_line_line. cbn [l_dir l_origin]. rewrite !vlength_R, H1, H2, H3.
    rewrite !geo_assert_true by (apply (lr_eq_0 _ HL); cbn; lra). cbn [bind].
    rewrite tol_zero_t by nra.
    rewrite H4. reflexivity.
  - unfold H. nra.
Qed.
Print Assumptions C15_near_parallel_refuted.

Example C15_example :
  rnorm (mk3 1 0 0) = 1 /\ rnorm (mk3 0 1 0) = 1 /\ gram (mk3 1 0 0) (mk3 0 1 0) = 1.
Proof. repeat split; try (apply rnorm_is; [lra|cbn; ring]). unfold gram. cbn. ring. Qed.

(** ** C16: line and ray *)
Theorem C16_line_ray_partial :
  forall (M : R) (L : Linal (RS M)), LinalR L -> forall (l : line (RS M) 3) (r : ray (RS M) 3),
    l_dir l <> rzero -> r_dir r <> rzero ->
    gram (l_dir l) (r_dir r) = 0 \/ leps L < gram (l_dir l) (r_dir r) ->
    is_set_distance (on_line (l_origin l) (l_dir l)) (on_ray (r_origin r) (r_dir r)) (dist_line_ray L l r).
Proof. exact @dist_line_ray_spec. Qed.
Print Assumptions C16_line_ray_partial.

(** with eps = 0 there is no excluded band *)
Theorem C16_line_ray_exact :
  forall (M : R) (L : Linal (RS M)), LinalR L -> leps L = 0 ->
  forall (l : line (RS M) 3) (r : ray (RS M) 3),
    l_dir l <> rzero -> r_dir r <> rzero ->
    is_set_distance (on_line (l_origin l) (l_dir l)) (on_ray (r_origin r) (r_dir r)) (dist_line_ray L l r).
Proof.
  intros M L HL He l r Hl Hr. apply C16_line_ray_partial; auto.
  pose proof (gram_nonneg (l_dir l) (r_dir r)). lra.
Qed.
Print Assumptions C16_line_ray_exact.

(** inside the band the reported distance is wrong by any amount *)
Theorem C16_near_parallel_refuted :
  forall (M e K : R), 0 < e -> 0 <= K ->
  exists (l : line (RS M) 3) (r : ray (RS M) 3) (p : vec R 3),
    l_dir l <> rzero /\ r_dir r <> rzero /\
    on_line (l_origin l) (l_dir l) p /\ on_ray (r_origin r) (r_dir r) p /\
    K < dist_line_ray (tol_linal (RS M) e) l r.
Proof.
  intros M e K He HK. pose proof (tol_linal_R M e (Rlt_le _ _ He)) as HL.
  set (m := Rmin e 1).
  assert (Hm : 0 < m /\ m <= e /\ m <= 1).
  { unfold m. split; [apply Rmin_glb_lt; lra|]. split; [apply Rmin_l|apply Rmin_r]. }
  clearbody m.
  exists (@mkLine (RS M) 3 (mk3 0 0 0) (mk3 1 0 0)), (@mkRay (RS M) 3 (mk3 0 (K + 1) 0) (mk3 1 (- m) 0)).
  exists (mk3 ((K + 1) / m) 0 0). cbn [l_origin l_dir r_origin r_dir].
  assert (Hd : (mk3 1 0 0 : vec R 3) <> rzero).
  { intros E. apply (f_equal fst) in E. cbn in E. lra. }
  split; [exact Hd|]. split; [|split; [|split]].
  - intros E. apply (f_equal fst) in E. cbn in E. lra.
  - exists ((K + 1) / m). veqs.
  - exists ((K + 1) / m). split.
    + apply Rmult_le_pos; [lra|apply Rlt_le, Rinv_0_lt_compat; lra].
    + veqs.
  - unfold dist_line_ray. rewrite closest_params_gram. cbn [l_origin l_dir r_origin r_dir].
    assert (Hg : gram (mk3 1 0 0) (mk3 1 (- m) 0) = m * m) by (unfold gram; cbn; ring). rewrite Hg.
    rewrite tol_zero_t by nra.
    rewrite dist_point_line_R by exact Hd. cbn [l_origin l_dir].
    replace (rdist _ _) with (K + 1); [lra|]. symmetry. apply rdist_is; [lra|].
    cbn. field.
Qed.
Print Assumptions C16_near_parallel_refuted.

Example C16_example :
  gram (mk3 1 0 0) (mk3 0 1 0) = 1 /\ (mk3 1 0 0 : vec R 3) <> rzero /\
  LinalR (tol_linal (RS 100) (/ 10)) /\ / 10 < 1.
Proof.
  split; [unfold gram; cbn; ring|]. split; [|split; [apply tol_linal_R; lra|lra]].
  intros E. apply (f_equal fst) in E. cbn in E. lra.
Qed.

(** ** C17: segment and ray *)
Theorem C17_segment_ray_partial :
  forall (M : R) (L : Linal (RS M)), LinalR L -> forall (g : segment (RS M) 3) (r : ray (RS M) 3),
    let sd := rsub (g_target g) (g_source g) in
    (* not nearly parallel: the distance of some pair of points, an upper bound ... *)
    (leps L < gram sd (r_dir r) ->
     exists p q, on_segment (g_source g) (g_target g) p /\ on_ray (r_origin r) (r_dir r) q /\
       dist_segment_ray L g r = Ok (rdist p q)) /\
    (* ... which is minimal if the closest points of the carrier lines lie on the objects *)
    (forall t s, leps L < gram sd (r_dir r) ->
     (forall u v, rdist (along (g_source g) sd t) (along (r_origin r) (r_dir r) s) <=
                  rdist (along (g_source g) sd u) (along (r_origin r) (r_dir r) v)) ->
     0 <= t <= 1 -> 0 <= s ->
     exists m, dist_segment_ray L g r = Ok m /\
       is_set_distance (on_segment (g_source g) (g_target g)) (on_ray (r_origin r) (r_dir r)) m) /\
    (* parallel to a unit-length segment, exact comparisons *)
    (leps L = 0 -> rnorm sd = 1 -> r_dir r <> rzero -> gram sd (r_dir r) = 0 ->
     exists m, dist_segment_ray L g r = Ok m /\
       is_set_distance (on_segment (g_source g) (g_target g)) (on_ray (r_origin r) (r_dir r)) m).
Proof.
  intros M L HL g r sd. split; [exact (dist_segment_ray_upper HL g r)|]. split.
  - intros t s Hg Hmin Ht Hs.
    destruct (closest_params L (leps L) (g_source g) sd (r_origin r) (r_dir r)) as [[t' s']|] eqn:E.
    + pose proof (lr_eps L HL) as He.
      destruct (closest_params_unique HL _ _ _ _ _ _ _ He E t s (Hmin t' s')) as [-> ->].
      destruct (closest_params_some HL _ _ _ _ _ _ _ He E) as (_ & H1 & H2).
      exact (dist_segment_ray_inside HL g r t' s' Hg H1 H2 Ht Hs).
    + apply (closest_params_none HL) in E; [lra|apply (lr_eps L HL)].
  - exact (dist_segment_ray_parallel HL g r).
Qed.
Print Assumptions C17_segment_ray_partial.

(** the two parameters are clamped independently: segment (0,0,0)-(1,0,0), ray
    from (3,1,0) with direction (4,-3,0)/5; the result is 10/3, but the source
    of the ray is only sqrt 5 away from the end of the segment *)
Theorem C17_segment_ray_refuted :
  forall (M e : R), 0 <= e < 9 / 25 ->
  exists (g : segment (RS M) 3) (r : ray (RS M) 3) (p q : vec R 3),
    on_segment (g_source g) (g_target g) p /\ on_ray (r_origin r) (r_dir r) q /\
    rnorm (r_dir r) = 1 /\ rdist p q = sqrt 5 /\
    dist_segment_ray (tol_linal (RS M) e) g r = Ok (10 / 3) /\ sqrt 5 < 10 / 3.
Proof.
  intros M e He.
  exists (@mkSegment (RS M) 3 (mk3 0 0 0) (mk3 1 0 0)), (@mkRay (RS M) 3 (mk3 3 1 0) (mk3 (4/5) (-3/5) 0)).
  exists (mk3 1 0 0), (mk3 3 1 0). cbn [g_source g_target r_origin r_dir].
  split; [|split; [|split; [|split; [|split]]]].
  - exists 1. split; [lra|]. unfold along. now rewrite rscale_1, radd_rsub.
  - exists 0. split; [lra|]. unfold along. now rewrite rscale_0, radd_zero_r.
  - apply rnorm_is; [lra|]. cbn. field.
  - unfold rdist, rnorm. apply (f_equal sqrt). cbn. ring.
  - unfold dist_segment_ray. rewrite closest_params_gram. cbn [g_source g_target r_origin r_dir].
    assert (Hg : gram (vsub (S := RS M) (mk3 1 0 0) (mk3 0 0 0)) (mk3 (4/5) (-3/5) 0) = 9 / 25) by (unfold gram; cbn; field).
    rewrite Hg.
    rewrite tol_zero_f by nra.
    f_equal.
    match goal with |- context [calc_segment_point _ ?x] => assert (Ht : x = 13 / 3) by (cbn; field); rewrite Ht end.
    match goal with |- context [calc_ray_point _ ?x] => assert (Hs : x = 5 / 3) by (cbn; field); rewrite Hs end.
    unfold calc_segment_point, calc_ray_point. cbn [sltb RS s0 s1].
    rewrite (proj2 (Rltb_false (13/3) 0)), (proj2 (Rltb_true 1 (13/3))), (proj2 (Rltb_false (5/3) 0)) by lra.
    cbn [g_source g_target r_origin r_dir]. rewrite vlength_R. apply rnorm_is; [lra|]. cbn. field.
  - apply Rsqr_incrst_0; [|apply sqrt_pos|lra]. unfold Rsqr. rewrite sqrt_sqrt by lra. lra.
Qed.
Print Assumptions C17_segment_ray_refuted.

(** with complementary comparisons (both implementations in Linal.v) the
    function returns a value for all finite inputs ... *)
Theorem C17_no_undefined_behaviour :
  forall (M : R) (L : Linal (RS M)) (g : segment (RS M) 3) (r : ray (RS M) 3),
    (forall e a b, isLess L e a b = negb (isGreaterEq L e a b)) ->
    (forall e a b, isGreater L e a b = negb (isLessEq L e a b)) ->
    exists m, dist_segment_ray L g r = Ok m.
Proof. exact @dist_segment_ray_total. Qed.
Print Assumptions C17_no_undefined_behaviour.

Example C17_no_undefined_behaviour_example :
  forall e a b, isLess (tol_linal (RS 100) (/ 10)) e a b = negb (isGreaterEq (tol_linal (RS 100) (/ 10)) e a b) /\
                isGreater (tol_linal (RS 100) (/ 10)) e a b = negb (isLessEq (tol_linal (RS 100) (/ 10)) e a b).
Proof. intros. cbn. now rewrite !negb_involutive. Qed.

(** ... but for a segment of length zero the parameter is NaN, every comparison
    is false and the empty optional is dereferenced *)
Theorem C17_degenerate_refuted :
  forall (M : R), dist_segment_ray (raw_linal (XS M) (Fin 0))
    (@mkSegment (XS M) 3 (mk3 (Fin 0) (Fin 0) (Fin 0)) (mk3 (Fin 0) (Fin 0) (Fin 0)))
    (@mkRay (XS M) 3 (mk3 (Fin 0) (Fin 1) (Fin 0)) (mk3 (Fin 1) (Fin 0) (Fin 0))) = UB.
Proof.
  intros M. unfold dist_segment_ray, closest_params, vlength. cbn.
  repeat (replace (0 - 0) with 0 by ring). repeat rewrite ?Rmult_0_l, ?Rmult_0_r, ?Rplus_0_r, ?Rmult_1_l, ?Rminus_0_r.
  rewrite (proj2 (Reqb_true 0 0) eq_refl).
  destruct (Rlt_dec 0 0) as [H|_]; [lra|]. rewrite sqrt_0. cbn.
  destruct (Req_EM_T 0 0) as [_|H]; [|lra]. cbn. reflexivity.
Qed.
Print Assumptions C17_degenerate_refuted.

Example C17_example :
  let g := @mkSegment (RS 100) 3 (mk3 0 0 0) (mk3 1 0 0) in
  let r := @mkRay (RS 100) 3 (mk3 (/ 2) (-1) 1) (mk3 0 1 0) in
  leps (tol_linal (RS 100) (/ 10)) < gram (rsub (g_target g) (g_source g)) (r_dir r) /\
  (forall u v, rdist (along (g_source g) (rsub (g_target g) (g_source g)) (/ 2)) (along (r_origin r) (r_dir r) 1) <=
               rdist (along (g_source g) (rsub (g_target g) (g_source g)) u) (along (r_origin r) (r_dir r) v)).
Proof.
  cbn zeta. cbn [g_source g_target r_origin r_dir]. split.
  - unfold gram. cbn. lra.
  - intros u v. apply rdist_le_of_sq.
    pose proof (Rle_0_sqr (u - / 2)) as H1. pose proof (Rle_0_sqr (v - 1)) as H2. unfold Rsqr in *. cbn. lra.
Qed.

(** ** C18: sphere *)
Theorem C18_sphere_distance :
  forall (M : R) (L : Linal (RS M)), LinalR L -> forall (v : vec R 3) (s : sphere (RS M)), 0 <= s_radius s ->
    is_set_distance (fun p => p = v) (on_sphere (s_origin s) (s_radius s)) (dist_sphere v s) /\
    (signed_dist_sphere v s < 0 <-> rdist v (s_origin s) < s_radius s) /\
    (signed_dist_sphere v s = 0 <-> on_sphere (s_origin s) (s_radius s) v) /\
    Rabs (signed_dist_sphere v s) = dist_sphere v s /\
    (rdist v (s_origin s) <= s_radius s -> sphere_contains L s v = true) /\
    (sphere_contains L s v = true -> rdist v (s_origin s) <= s_radius s + leps L).
Proof.
  intros M L HL v s Hr. split; [exact (dist_sphere_spec v s Hr)|].
  rewrite signed_dist_sphere_R. unfold on_sphere.
  split; [split; intros; cbn in *; lra|]. split; [split; intros; cbn in *; lra|].
  split; [|exact (sphere_contains_spec HL v s)].
  unfold dist_sphere. rewrite signed_dist_sphere_R. reflexivity.
Qed.
Print Assumptions C18_sphere_distance.

Example C18_example :
  let s := @mkSphere (RS 100) (mk3 0 0 0) 2 in 0 <= s_radius s /\ dist_sphere (mk3 3 4 0) s = 3.
Proof.
  cbn zeta. split; [cbn; lra|]. unfold dist_sphere. rewrite signed_dist_sphere_R. cbn [sabs RS s_origin s_radius].
  replace (rdist (mk3 3 4 0) (mk3 0 0 0)) with 5 by (symmetry; apply rdist_is; [lra|cbn; ring]).
  rewrite Rabs_pos_eq; lra.
Qed.
