(** * Proofs about intersections *)

From Coq Require Import Reals Lra Psatz List Bool Arith Lia.
From Verif Require Import Scalar Linal Result SpecReal VecR VecLemmas ModelShapes ModelDistance ModelIntersect
  ProofDistance ProofDistance2.
Local Open Scope R_scope.

Lemma vec2_eq (u v : vec R 2) : fst u = fst v -> fst (snd u) = fst (snd v) -> u = v.
Proof. destruct u as [a [b []]], v as [x [y []]]. cbn. now intros -> ->. Qed.

Lemma on_line_along {n} (o d : vec R n) t : on_line o d (along o d t).
Proof. now exists t. Qed.

Ltac onl := solve [eexists; reflexivity].

Section Inter.
  Context {M : R} {L : Linal (RS M)} (HL : LinalR L).
  Context (eps : R) (He : 0 <= eps).

  (** ** two-dimensional lines *)
  Definition cramer_t (lo ld ro rd : vec R 2) : R := det2 (rsub ro lo) rd / det2 ld rd.
  Definition cramer_s (lo ld ro rd : vec R 2) : R := det2 (rsub ro lo) ld / det2 ld rd.

  Lemma cramer_meet lo ld ro rd : det2 ld rd <> 0 ->
    along lo ld (cramer_t lo ld ro rd) = along ro rd (cramer_s lo ld ro rd).
  Proof.
    destruct lo as [a [b []]], ld as [c [d []]], ro as [x [y []]], rd as [z [w []]].
    unfold cramer_t, cramer_s, along, det2. cbn. intros H. apply vec2_eq; cbn; field; exact H.
  Qed.

  Lemma cramer_unique lo ld ro rd t s : det2 ld rd <> 0 -> along lo ld t = along ro rd s ->
    t = cramer_t lo ld ro rd /\ s = cramer_s lo ld ro rd.
  Proof.
    destruct lo as [a [b []]], ld as [c [d []]], ro as [x [y []]], rd as [z [w []]].
    unfold cramer_t, cramer_s, along, det2. cbn. intros H E.
    assert (E1 : a + t * c = x + s * z) by (injection E; auto).
    assert (E2 : b + t * d = y + s * w) by (injection E; auto).
    split; apply Rmult_eq_reg_r with (c * w - z * d); auto;
      (unfold Rdiv; rewrite Rmult_assoc, Rinv_l, Rmult_1_r by assumption).
    - replace x with (a + t * c - s * z) by lra. replace y with (b + t * d - s * w) by lra. ring.
    - replace x with (a + t * c - s * z) by lra. replace y with (b + t * d - s * w) by lra. ring.
  Qed.

  Lemma line2_R (l r : line (RS M) 2) :
    intersect_line2 L eps l r =
    if isZero L eps (Rabs (det2 (l_dir l) (l_dir r))) then None
    else Some (along (l_origin l) (l_dir l) (cramer_t (l_origin l) (l_dir l) (l_origin r) (l_dir r))).
  Proof.
    unfold intersect_line2. cbn [sabs ssub smul sdiv RS]. toR.
    fold (det2 (l_dir l) (l_dir r)).
    destruct (isZero L eps _); [reflexivity|]. unfold along, cramer_t.
    set (h := rsub (l_origin r) (l_origin l)).
    assert (E : (fst h : R) * fst (snd (l_dir r) : vec R 1) - fst (snd h) * fst (l_dir r : vec R 2) = det2 h (l_dir r))
      by (unfold det2; cbn; ring).
    exact (f_equal (fun z => Some (along (l_origin l) (l_dir l) (z / det2 (l_dir l) (l_dir r)))) E).
  Qed.

  Lemma line2_sound l r p : intersect_line2 L eps l r = Some p ->
    on_line (l_origin l) (l_dir l) p /\ on_line (l_origin r) (l_dir r) p.
  Proof.
    rewrite line2_R. destruct (isZero L eps _) eqn:E; [discriminate|]. intros H. apply Some_inj in H. subst p.
    apply (zero_f HL) in E; [|exact He].
    assert (Hd : det2 (l_dir l) (l_dir r) <> 0) by (intros H; rewrite H, Rabs_R0 in E; lra).
    split; [onl|]. rewrite (cramer_meet _ _ _ _ Hd). onl.
  Qed.

  Lemma line2_complete l r p : eps < Rabs (det2 (l_dir l) (l_dir r)) ->
    on_line (l_origin l) (l_dir l) p -> on_line (l_origin r) (l_dir r) p ->
    intersect_line2 L eps l r = Some p.
  Proof.
    intros Hd (t & ->) (s & E). rewrite line2_R.
    destruct (isZero L eps _) eqn:Ez.
    - apply (zero_t HL) in Ez; [|exact He]. lra.
    - assert (Hd' : det2 (l_dir l) (l_dir r) <> 0) by (intros H; rewrite H, Rabs_R0 in Hd; lra).
      destruct (cramer_unique _ _ _ _ _ _ Hd' E) as [<- _]. reflexivity.
  Qed.

  Lemma line2_none l r : intersect_line2 L eps l r = None -> Rabs (det2 (l_dir l) (l_dir r)) <= eps.
  Proof.
    rewrite line2_R. destruct (isZero L eps _) eqn:E; [|discriminate].
    apply (zero_t HL) in E; [|exact He]. intros _. lra.
  Qed.

  (** ** two-dimensional segments *)
  Lemma segment2_R dbg (f g : segment (RS M) 2) :
    let fd := rsub (g_target f) (g_source f) in
    let gd := rsub (g_target g) (g_source g) in
    let t := cramer_t (g_source f) fd (g_source g) gd in
    let s := cramer_s (g_source f) fd (g_source g) gd in
    intersect_segment2 L dbg eps f g =
    if isZero L eps (det2 fd gd) then Ok None
    else if isLess L eps s 0 || isGreater L eps s 1 || isLess L eps t 0 || isGreater L eps t 1 then Ok None
    else let* _ := geo_assert dbg (veq L (n := 2) (along (g_source f) fd t) (along (g_source g) gd s)) in
         Ok (Some (along (g_source f) fd t)).
  Proof.
    intros fd gd t s.
    set (h := rsub (g_source g) (g_source f)).
    assert (Et : (fst h * fst (snd gd) - fst (snd h) * fst gd) / det2 fd gd = t).
    { unfold t, cramer_t. fold h. unfold Rdiv. f_equal. unfold det2. ring. }
    assert (Es : (fst fd * - fst (snd h) - fst (snd fd) * - fst h) / det2 fd gd = s).
    { unfold s, cramer_s. fold h. unfold Rdiv. f_equal. unfold det2. ring. }
    rewrite <- Et, <- Es. reflexivity.
  Qed.

  Lemma segment2_sound dbg f g p : intersect_segment2 L dbg eps f g = Ok (Some p) ->
    exists t s, - eps <= t <= 1 + eps /\ - eps <= s <= 1 + eps /\
      p = along (g_source f) (rsub (g_target f) (g_source f)) t /\
      p = along (g_source g) (rsub (g_target g) (g_source g)) s.
  Proof.
    rewrite segment2_R. cbn zeta. destruct (isZero L eps _) eqn:E; [discriminate|].
    apply (zero_f HL) in E; [|exact He].
    pose proof (cramer_meet (g_source f) _ (g_source g) _ E) as Hm.
    set (t := cramer_t _ _ _ _) in *. set (s := cramer_s _ _ _ _) in *.
    destruct (isLess L eps s 0) eqn:E1; [discriminate|]. destruct (isGreater L eps s 1) eqn:E2; [discriminate|].
    destruct (isLess L eps t 0) eqn:E3; [discriminate|]. destruct (isGreater L eps t 1) eqn:E4; [discriminate|].
    cbn [orb]. intros H. assert (Hp : p = along (g_source f) (rsub (g_target f) (g_source f)) t).
    { destruct (geo_assert dbg _); try discriminate. cbn in H. now apply Ok_inj, Some_inj in H. }
    cmp_hyps HL He. exists t, s. subst p. split; [lra|]. split; [lra|]. split; [reflexivity|exact Hm].
  Qed.

  Lemma segment2_complete dbg f g p : (forall n (v : vec R n), veq L v v = true) ->
    eps < Rabs (det2 (rsub (g_target f) (g_source f)) (rsub (g_target g) (g_source g))) ->
    on_segment (g_source f) (g_target f) p -> on_segment (g_source g) (g_target g) p ->
    intersect_segment2 L dbg eps f g = Ok (Some p).
  Proof.
    intros Hv Hd (t & Ht & ->) (s & Hs & E). rewrite segment2_R. cbn zeta.
    destruct (isZero L eps _) eqn:Ez.
    - apply (lr_zero_1 L HL) in Ez; [|exact He]. lra.
    - assert (Hd' : det2 (rsub (g_target f) (g_source f)) (rsub (g_target g) (g_source g)) <> 0)
        by (intros H; rewrite H, Rabs_R0 in Hd; lra).
      destruct (cramer_unique _ _ _ _ _ _ Hd' E) as [<- <-].
      destruct (isLess L eps s 0) eqn:E1; [cmp_hyps HL He; lra|].
      destruct (isGreater L eps s 1) eqn:E2; [cmp_hyps HL He; lra|].
      destruct (isLess L eps t 0) eqn:E3; [cmp_hyps HL He; lra|].
      destruct (isGreater L eps t 1) eqn:E4; [cmp_hyps HL He; lra|]. cbn [orb].
      rewrite geo_assert_true; [reflexivity|]. rewrite <- E. apply Hv.
  Qed.

  Lemma segment2_total dbg f g : (forall n (v : vec R n), veq L v v = true) ->
    exists o, intersect_segment2 L dbg eps f g = Ok o.
  Proof.
    intros Hv. rewrite segment2_R. cbn zeta. destruct (isZero L eps _) eqn:E; [eexists; reflexivity|].
    apply (zero_f HL) in E; [|exact He].
    destruct (_ || _); [eexists; reflexivity|].
    rewrite (cramer_meet _ _ _ _ E), geo_assert_true by apply Hv. eexists; reflexivity.
  Qed.

  (** ** three-dimensional lines *)
  Lemma line3_sound l r p : intersect_line3 L eps l r = Some p ->
    on_line (l_origin l) (l_dir l) p /\
    exists q, on_line (l_origin r) (l_dir r) q /\ rdist p q <= eps /\
      (forall a b, on_line (l_origin l) (l_dir l) a -> on_line (l_origin r) (l_dir r) b -> rdist p q <= rdist a b).
  Proof.
    unfold intersect_line3.
    destruct (closest_params L (leps L) (l_origin l) (l_dir l) (l_origin r) (l_dir r)) as [[t s]|] eqn:E; [|discriminate].
    toR. destruct (isZero L eps _) eqn:Ez; [|discriminate].
    intros H. apply Some_inj in H. subst p. split; [onl|].
    exists (along (l_origin r) (l_dir r) s). split; [onl|].
    pose proof Ez as Ez0. split.
    { apply (lr_zero_1 L HL) in Ez0; [|exact He]. rewrite Rabs_pos_eq in Ez0; [exact Ez0|apply rnorm_nonneg]. }
    intros a b (u & ->) (v & ->).
    apply (closest_params_min HL (leps L) (l_origin l) (l_dir l) (l_origin r) (l_dir r) t s (lr_eps L HL) E).
  Qed.

  Lemma closest_common (lo ld ro rd : vec R 3) e t s p u v : 0 <= e ->
    closest_params L e lo ld ro rd = Some (t, s) -> p = along lo ld u -> p = along ro rd v -> u = t /\ v = s.
  Proof.
    intros Hn E -> H2. apply (closest_params_unique HL _ _ _ _ _ _ _ Hn E).
    rewrite <- H2, rdist_self. apply rdist_nonneg.
  Qed.

  Lemma line3_complete l r p : leps L < gram (l_dir l) (l_dir r) ->
    on_line (l_origin l) (l_dir l) p -> on_line (l_origin r) (l_dir r) p ->
    intersect_line3 L eps l r = Some p.
  Proof.
    intros Hg (u & Hu) (v & Hv). unfold intersect_line3.
    destruct (closest_params L (leps L) (l_origin l) (l_dir l) (l_origin r) (l_dir r)) as [[t s]|] eqn:E.
    - destruct (closest_common _ _ _ _ _ _ _ _ _ _ (lr_eps L HL) E Hu Hv) as [-> ->].
      toR. change (rnorm (rsub ?x ?y)) with (rdist x y).
      unfold along in Hu, Hv. rewrite <- Hu, <- Hv.
      change (rnorm (rsub p p)) with (rdist p p).
      rewrite rdist_self, (lr_zero_0 L HL) by exact He. reflexivity.
    - apply (closest_params_none HL) in E; [lra|apply (lr_eps L HL)].
  Qed.

  Lemma line3_skew l r m :
    is_set_distance (on_line (l_origin l) (l_dir l)) (on_line (l_origin r) (l_dir r)) m -> eps < m ->
    intersect_line3 L eps l r = None.
  Proof.
    intros [Hm _] Hlt. destruct (intersect_line3 L eps l r) as [p|] eqn:E; [|reflexivity].
    destruct (line3_sound _ _ _ E) as (Hp & q & Hq & Hd & _). specialize (Hm p q Hp Hq). lra.
  Qed.

  (** ** three-dimensional segments and rays *)
  Lemma segment3_some f g p : intersect_segment3 L eps f g = Some p ->
    let fd := rsub (g_target f) (g_source f) in
    let gd := rsub (g_target g) (g_source g) in
    exists t s, - eps <= t <= 1 + eps /\ - eps <= s <= 1 + eps /\ p = along (g_source f) fd t /\
      forall u v, rdist p (along (g_source g) gd s) <= rdist (along (g_source f) fd u) (along (g_source g) gd v).
  Proof.
    intros H fd gd. unfold intersect_segment3 in H.
    change (vsub (g_target f) (g_source f)) with fd in H. change (vsub (g_target g) (g_source g)) with gd in H.
    destruct (closest_params L eps (g_source f) fd (g_source g) gd) as [[t s]|] eqn:E; [|discriminate].
    cbn [s0 s1 RS] in H.
    destruct (isLess L eps s 0) eqn:E1; [discriminate|]. destruct (isGreater L eps s 1) eqn:E2; [discriminate|].
    destruct (isLess L eps t 0) eqn:E3; [discriminate|]. destruct (isGreater L eps t 1) eqn:E4; [discriminate|].
    cbn [orb] in H. apply Some_inj in H. cmp_hyps HL He. subst p. exists t, s.
    split; [lra|]. split; [lra|]. toR. split; [reflexivity|].
    intros u v. apply (closest_params_min HL eps (g_source f) fd (g_source g) gd t s He E).
  Qed.

  Lemma segment3_complete f g p : eps < gram (rsub (g_target f) (g_source f)) (rsub (g_target g) (g_source g)) ->
    on_segment (g_source f) (g_target f) p -> on_segment (g_source g) (g_target g) p ->
    intersect_segment3 L eps f g = Some p.
  Proof.
    intros Hg (u & Hu & Eu) (v & Hv & Ev). unfold intersect_segment3. toR.
    destruct (closest_params L eps (g_source f) _ (g_source g) _) as [[t s]|] eqn:E.
    - destruct (closest_common _ _ _ _ _ _ _ _ _ _ He E Eu Ev) as [-> ->]. cbn [s0 s1 RS].
      destruct (isLess L eps s 0) eqn:E1; [cmp_hyps HL He; lra|].
      destruct (isGreater L eps s 1) eqn:E2; [cmp_hyps HL He; lra|].
      destruct (isLess L eps t 0) eqn:E3; [cmp_hyps HL He; lra|].
      destruct (isGreater L eps t 1) eqn:E4; [cmp_hyps HL He; lra|]. cbn [orb]. now rewrite Eu.
    - apply (closest_params_none HL) in E; [lra|exact He].
  Qed.

  Lemma segment_ray_some g r p : intersect_segment_ray L eps g r = Some p ->
    let gd := rsub (g_target g) (g_source g) in
    exists t s, - eps <= t <= 1 + eps /\ - eps <= s /\ p = along (r_origin r) (r_dir r) s /\
      forall u v, rdist (along (g_source g) gd t) p <= rdist (along (g_source g) gd u) (along (r_origin r) (r_dir r) v).
  Proof.
    intros H gd. unfold intersect_segment_ray in H. change (vsub (g_target g) (g_source g)) with gd in H.
    destruct (closest_params L eps (g_source g) gd (r_origin r) (r_dir r)) as [[t s]|] eqn:E; [|discriminate].
    cbn [s0 s1 RS] in H.
    destruct (isLess L eps t 0) eqn:E3; [discriminate|]. destruct (isGreater L eps t 1) eqn:E4; [discriminate|].
    destruct (isLess L eps s 0) eqn:E1; [discriminate|].
    cbn [orb] in H. apply Some_inj in H. cmp_hyps HL He. subst p. exists t, s.
    split; [lra|]. split; [lra|]. toR. split; [reflexivity|].
    intros u v. apply (closest_params_min HL eps (g_source g) gd (r_origin r) (r_dir r) t s He E).
  Qed.

  Lemma segment_ray_complete g r p : eps < gram (rsub (g_target g) (g_source g)) (r_dir r) ->
    on_segment (g_source g) (g_target g) p -> on_ray (r_origin r) (r_dir r) p ->
    intersect_segment_ray L eps g r = Some p.
  Proof.
    intros Hg (u & Hu & Eu) (v & Hv & Ev). unfold intersect_segment_ray. toR.
    destruct (closest_params L eps (g_source g) _ (r_origin r) _) as [[t s]|] eqn:E.
    - destruct (closest_common _ _ _ _ _ _ _ _ _ _ He E Eu Ev) as [-> ->]. cbn [s0 s1 RS].
      destruct (isLess L eps t 0) eqn:E3; [cmp_hyps HL He; lra|].
      destruct (isGreater L eps t 1) eqn:E4; [cmp_hyps HL He; lra|].
      destruct (isLess L eps s 0) eqn:E1; [cmp_hyps HL He; lra|]. cbn [orb]. now rewrite Ev.
    - apply (closest_params_none HL) in E; [lra|exact He].
  Qed.

  (** ** plane *)
  Lemma plane_hit (po pn lo ld : vec R 3) t : rdot ld pn <> 0 ->
    (on_plane po pn (along lo ld t) <-> t = rdot (rsub po lo) pn / rdot ld pn).
  Proof.
    intros Hd. unfold on_plane, along. vdot. rewrite (rdot_comm pn lo), (rdot_comm pn ld), (rdot_comm pn po).
    split; intros H.
    - apply Rmult_eq_reg_r with (rdot ld pn); [|exact Hd]. unfold Rdiv. rewrite Rmult_assoc, Rinv_l by exact Hd. lra.
    - subst t. field. exact Hd.
  Qed.

  Lemma plane_line_sound p l q : intersect_plane_line L eps p l = Some q ->
    on_plane (p_origin p) (p_normal p) q /\ on_line (l_origin l) (l_dir l) q.
  Proof.
    unfold intersect_plane_line. toR. destruct (isZero L eps _) eqn:E; [discriminate|].
    apply (zero_f HL) in E; [|exact He]. intros H. apply Some_inj in H. subst q.
    split; [|onl]. apply plane_hit; [exact E|reflexivity].
  Qed.

  Lemma plane_line_complete p l q : eps < Rabs (rdot (l_dir l) (p_normal p)) ->
    on_plane (p_origin p) (p_normal p) q -> on_line (l_origin l) (l_dir l) q ->
    intersect_plane_line L eps p l = Some q.
  Proof.
    intros Hd Hp (t & ->). unfold intersect_plane_line. toR. destruct (isZero L eps _) eqn:E.
    - apply (lr_zero_1 L HL) in E; [|exact He]. lra.
    - apply (zero_f HL) in E; [|exact He]. apply plane_hit in Hp; [|exact E]. now subst t.
  Qed.

  Lemma plane_param_R po pn lo ld :
    plane_param L eps po pn lo ld =
    if isZero L eps (rdot ld pn) then None else Some (rdot (rsub po lo) pn / rdot ld pn).
  Proof. unfold plane_param. toR. reflexivity. Qed.

  Lemma plane_ray_sound p r q : intersect_plane_ray L eps p r = Some q ->
    on_plane (p_origin p) (p_normal p) q /\ on_ray (r_origin r) (r_dir r) q.
  Proof.
    unfold intersect_plane_ray. rewrite plane_param_R. destruct (isZero L eps _) eqn:E; [discriminate|].
    apply (zero_f HL) in E; [|exact He]. toR. destruct (isGreater L eps _ _) eqn:E2; [|discriminate].
    apply (greater_t HL) in E2; [|exact He]. cbn [s0 RS] in E2. intros H. apply Some_inj in H. subst q.
    split; [apply plane_hit; [exact E|reflexivity]|]. eexists. split; [|reflexivity]. lra.
  Qed.

  Lemma plane_ray_complete p r t : eps < Rabs (rdot (r_dir r) (p_normal p)) ->
    on_plane (p_origin p) (p_normal p) (along (r_origin r) (r_dir r) t) -> eps < t ->
    intersect_plane_ray L eps p r = Some (along (r_origin r) (r_dir r) t).
  Proof.
    intros Hd Hp Ht. unfold intersect_plane_ray. rewrite plane_param_R. destruct (isZero L eps _) eqn:E.
    - apply (lr_zero_1 L HL) in E; [|exact He]. lra.
    - apply (zero_f HL) in E; [|exact He]. apply plane_hit in Hp; [|exact E]. rewrite <- Hp.
      rewrite (lr_greater_0 L HL) by (exact He || (cbn [s0 RS]; lra)). toR. reflexivity.
  Qed.

  Lemma plane_segment_sound p g q : intersect_plane_segment L eps p g = Some q ->
    on_plane (p_origin p) (p_normal p) q /\
    exists t, 0 < t <= 1 + eps /\ q = along (g_source g) (rsub (g_target g) (g_source g)) t.
  Proof.
    unfold intersect_plane_segment. rewrite plane_param_R. destruct (isZero L eps _) eqn:E; [discriminate|].
    apply (zero_f HL) in E; [|exact He]. toR. destruct (isGreater L eps _ _) eqn:E2; [|discriminate].
    destruct (isLessEq L eps _ _) eqn:E3; [|discriminate]. cbn [andb]. cbn [s0 s1 RS] in *.
    cmp_hyps HL He. intros H. apply Some_inj in H. subst q.
    split; [apply plane_hit; [exact E|reflexivity]|]. eexists. split; [|reflexivity]. lra.
  Qed.

  Lemma plane_segment_complete p g t : eps < Rabs (rdot (rsub (g_target g) (g_source g)) (p_normal p)) ->
    on_plane (p_origin p) (p_normal p) (along (g_source g) (rsub (g_target g) (g_source g)) t) -> eps < t <= 1 ->
    intersect_plane_segment L eps p g = Some (along (g_source g) (rsub (g_target g) (g_source g)) t).
  Proof.
    intros Hd Hp Ht. unfold intersect_plane_segment. rewrite plane_param_R. toR. destruct (isZero L eps _) eqn:E.
    - apply (lr_zero_1 L HL) in E; [|exact He]. lra.
    - apply (zero_f HL) in E; [|exact He]. apply plane_hit in Hp; [|exact E]. rewrite <- Hp.
      rewrite (lr_greater_0 L HL) by (exact He || (cbn [s0 RS]; lra)).
      rewrite (lr_lesseq_0 L HL) by (exact He || (cbn [s1 RS]; lra)). reflexivity.
  Qed.

  (** ** sphere *)
  Lemma quad_roots a b c t : 0 < a -> 0 <= b * b - 4 * a * c ->
    (a * t * t + b * t + c = 0 <->
     t = (- b + sqrt (b * b - 4 * a * c)) / (2 * a) \/ t = (- b - sqrt (b * b - 4 * a * c)) / (2 * a)).
  Proof.
    intros Ha Hd. set (q := sqrt (b * b - 4 * a * c)).
    assert (Hq : q * q = b * b - 4 * a * c) by (apply sqrt_sqrt, Hd).
    split.
    - intros H. assert (Hf : (2 * a * t + b - q) * (2 * a * t + b + q) = 0).
      { replace ((2 * a * t + b - q) * (2 * a * t + b + q)) with (4 * a * (a * t * t + b * t) + (b * b - q * q)) by ring.
        rewrite Hq. replace (a * t * t + b * t) with (- c) by lra. ring. }
      apply Rmult_integral in Hf as [Hf|Hf]; [left|right]; apply Rmult_eq_reg_l with (2 * a); try lra;
        field_simplify; lra.
    - intros H. assert (Hf : (2 * a * t + b) * (2 * a * t + b) = b * b - 4 * a * c).
      { destruct H as [-> | ->].
        - replace (2 * a * ((- b + q) / (2 * a)) + b) with q by (field; lra). exact Hq.
        - replace (2 * a * ((- b - q) / (2 * a)) + b) with (- q) by (field; lra). lra. }
      apply Rmult_eq_reg_l with (4 * a); [|lra]. rewrite Rmult_0_r.
      replace (4 * a * (a * t * t + b * t + c)) with ((2 * a * t + b) * (2 * a * t + b) - (b * b - 4 * a * c)) by ring.
      lra.
  Qed.

  Definition qb (c o d : vec R 3) : R := 2 * rdot d (rsub o c).
  Definition qc (c : vec R 3) (rad : R) (o : vec R 3) : R := rdot (rsub o c) (rsub o c) - rad * rad.
  Definition qdisc (c : vec R 3) (rad : R) (o d : vec R 3) : R :=
    qb c o d * qb c o d - 4 * rdot d d * qc c rad o.

  Lemma sphere_quadratic_R (s : sphere (RS M)) (o d : vec R 3) :
    sphere_quadratic s o d = (rdot d d, qb (s_origin s) o d, qdisc (s_origin s) (s_radius s) o d).
  Proof.
    unfold sphere_quadratic, qdisc, qb, qc. toR. cbn [sadd ssub smul s1 RS].
    replace (1 + 1) with 2 by ring. replace (2 + 2) with 4 by ring. reflexivity.
  Qed.

  Lemma sphere_poly (c : vec R 3) rad (o d : vec R 3) t :
    rdist (along o d t) c * rdist (along o d t) c - rad * rad =
    rdot d d * t * t + qb c o d * t + qc c rad o.
  Proof. rewrite rdist_sq. unfold qb, qc, along. vdot. dcomm. ring. Qed.

  Lemma on_sphere_poly (c : vec R 3) rad (o d : vec R 3) t : 0 <= rad ->
    (on_sphere c rad (along o d t) <-> rdot d d * t * t + qb c o d * t + qc c rad o = 0).
  Proof.
    intros Hr. rewrite <- sphere_poly. unfold on_sphere. pose proof (rdist_nonneg (along o d t) c). split; intros E.
    - rewrite E. ring.
    - apply sq_eq; lra.
  Qed.

  (** the discriminant in terms of the distance of the centre from the line *)
  Lemma qdisc_distance (c : vec R 3) rad (o d : vec R 3) m : d <> rzero ->
    is_set_distance (fun p => p = c) (on_line o d) m ->
    qdisc c rad o d = 4 * rdot d d * (rad * rad - m * m).
  Proof.
    intros Hd Hm. pose proof (nonzero_dot d Hd) as Ha.
    set (x := rdot (rsub c o) d / rdot d d).
    assert (Em : m = rdist c (along o d x)).
    { destruct Hm as [H1 (a & b & -> & (u & ->) & E)]. apply Rle_antisym.
      - apply H1; [reflexivity|onl].
      - rewrite <- E. apply foot_min, foot_param, Hd. }
    subst m. rewrite rdist_sq. unfold qdisc, qb, qc, along.
    assert (Hx : x * rdot d d = rdot (rsub c o) d) by (unfold x; field; lra).
    set (a := rdot d d) in *. set (w := rsub o c).
    assert (E1 : rdot d w = - (x * a)). { rewrite Hx. unfold w. vring. }
    replace (rsub c (radd o (rscale x d))) with (rscale (-1) (radd w (rscale x d))).
    2:{ apply eq_by_dot. unfold w. vring. }
    vdot. rewrite (rdot_comm w d), E1. fold a. ring.
  Qed.

  Definition sphere_line_R (s : sphere (RS M)) (o d : vec R 3) (k1 k2 k : R -> bool) : option (vec R 3) * option (vec R 3) :=
    let disc := qdisc (s_origin s) (s_radius s) o d in
    let b := qb (s_origin s) o d in
    let a := rdot d d in
    if isGreater L eps disc 0 then
      let t1 := (- b + sqrt disc) / (2 * a) in
      let t2 := (- b - sqrt disc) / (2 * a) in
      (if k1 t1 then Some (along o d t1) else None, if k2 t2 then Some (along o d t2) else None)
    else if isZero L eps disc then
      let t := - b / 2 * a in
      if k t then (Some (along o d t), None) else (None, None)
    else (None, None).

  Lemma intersect_sphere_line_R s l :
    intersect_sphere_line L eps s l = sphere_line_R s (l_origin l) (l_dir l) (fun _ => true) (fun _ => true) (fun _ => true).
  Proof.
    unfold intersect_sphere_line, sphere_line_R. rewrite sphere_quadratic_R. toR.
    cbn [sadd ssub smul sdiv sopp ssqrt s0 s1 RS]. replace (1 + 1) with 2 by ring. reflexivity.
  Qed.
  Lemma intersect_sphere_ray_R s r :
    let k := fun t => isGreaterEq L eps t 0 in
    intersect_sphere_ray L eps s r = sphere_line_R s (r_origin r) (r_dir r) k k k.
  Proof.
    unfold intersect_sphere_ray, sphere_line_R. rewrite sphere_quadratic_R. toR.
    cbn [sadd ssub smul sdiv sopp ssqrt s0 s1 RS]. replace (1 + 1) with 2 by ring. reflexivity.
  Qed.
  Lemma intersect_sphere_segment_R s g :
    let k := fun t => isGreaterEq L eps t 0 && isLessEq L eps t 1 in
    intersect_sphere_segment L eps s g = sphere_line_R s (g_source g) (rsub (g_target g) (g_source g)) k k k.
  Proof.
    unfold intersect_sphere_segment, sphere_line_R. rewrite sphere_quadratic_R. toR.
    cbn [sadd ssub smul sdiv sopp ssqrt s0 s1 RS]. replace (1 + 1) with 2 by ring. reflexivity.
  Qed.

  (** two-point case: sound and complete *)
  Lemma sphere_two s (o d : vec R 3) k m : 0 <= s_radius s -> d <> rzero ->
    is_set_distance (fun p => p = s_origin s) (on_line o d) m ->
    eps < 4 * rdot d d * (s_radius s * s_radius s - m * m) ->
    exists t1 t2, t2 < t1 /\
      (forall t, on_sphere (s_origin s) (s_radius s) (along o d t) <-> t = t1 \/ t = t2) /\
      sphere_line_R s o d k k k =
        (if k t1 then Some (along o d t1) else None, if k t2 then Some (along o d t2) else None).
  Proof.
    intros Hr Hd Hm Hlt. pose proof (nonzero_dot d Hd) as Ha.
    pose proof (qdisc_distance _ (s_radius s) _ _ _ Hd Hm) as Eq.
    unfold sphere_line_R. rewrite (lr_greater_0 L HL) by (exact He || lra).
    assert (Hpos : 0 < qdisc (s_origin s) (s_radius s) o d) by lra.
    eexists; eexists. split; [|split; [|reflexivity]].
    - pose proof (sqrt_lt_R0 _ Hpos). unfold Rdiv. apply Rmult_lt_compat_r; [apply Rinv_0_lt_compat; lra|lra].
    - intros t. rewrite on_sphere_poly by exact Hr. apply quad_roots; [exact Ha|]. apply Rlt_le, Hpos.
  Qed.

  (** no-point case *)
  Lemma sphere_none s (o d : vec R 3) k m : 0 <= s_radius s -> d <> rzero ->
    is_set_distance (fun p => p = s_origin s) (on_line o d) m ->
    4 * rdot d d * (s_radius s * s_radius s - m * m) < - eps ->
    sphere_line_R s o d k k k = (None, None).
  Proof.
    intros Hr Hd Hm Hlt. pose proof (qdisc_distance _ (s_radius s) _ _ _ Hd Hm) as Eq.
    unfold sphere_line_R. rewrite Eq.
    destruct (isGreater L eps _ 0) eqn:E1; [cmp_hyps HL He; lra|].
    destruct (isZero L eps _) eqn:E2; [cmp_hyps HL He; lra|]. reflexivity.
  Qed.

  (** every returned point lies on the line, and the sphere up to the band; unit directions *)
  Lemma sphere_unit_sound s (o d : vec R 3) k : 0 <= s_radius s -> rnorm d = 1 ->
    forall p, fst (sphere_line_R s o d k k k) = Some p \/ snd (sphere_line_R s o d k k k) = Some p ->
    exists t, k t = true /\ p = along o d t /\
      (on_sphere (s_origin s) (s_radius s) p \/
       Rabs (rdist p (s_origin s) * rdist p (s_origin s) - s_radius s * s_radius s) <= eps / 4).
  Proof.
    intros Hr Hn p H. assert (Ha : rdot d d = 1) by (rewrite <- rnorm_sq, Hn; ring).
    unfold sphere_line_R in H. destruct (isGreater L eps _ 0) eqn:E1.
    - apply (greater_t HL) in E1; [|exact He]. cbn [fst snd] in H.
      assert (Hq : forall t, (t = (- qb (s_origin s) o d + sqrt (qdisc (s_origin s) (s_radius s) o d)) / (2 * rdot d d) \/
                    t = (- qb (s_origin s) o d - sqrt (qdisc (s_origin s) (s_radius s) o d)) / (2 * rdot d d)) ->
                   on_sphere (s_origin s) (s_radius s) (along o d t)).
      { intros t Ht. apply on_sphere_poly; [exact Hr|]. apply quad_roots; [lra|apply Rlt_le, E1|exact Ht]. }
      set (t1 := (- qb _ _ _ + _) / _) in *. set (t2 := (- qb _ _ _ - _) / _) in *.
      destruct H as [H|H].
      + destruct (k t1) eqn:Ek; [|discriminate]. apply Some_inj in H. subst p. exists t1. split; [exact Ek|]. split; [reflexivity|]. left. apply Hq. now left.
      + destruct (k t2) eqn:Ek; [|discriminate]. apply Some_inj in H. subst p. exists t2. split; [exact Ek|]. split; [reflexivity|]. left. apply Hq. now right.
    - destruct (isZero L eps _) eqn:E2; [|destruct H; discriminate].
      apply (lr_zero_1 L HL) in E2; [|exact He]. rewrite Ha in *. rewrite Rmult_1_r in H.
      destruct (k (- qb (s_origin s) o d / 2)) eqn:Ek; [|destruct H; discriminate].
      destruct H as [H|H]; [|discriminate]. apply Some_inj in H. subst p.
      eexists. split; [exact Ek|]. split; [reflexivity|]. right.
      rewrite sphere_poly, Ha.
      replace (1 * (- qb (s_origin s) o d / 2) * (- qb (s_origin s) o d / 2) + qb (s_origin s) o d * (- qb (s_origin s) o d / 2) + qc (s_origin s) (s_radius s) o)
        with (- (qdisc (s_origin s) (s_radius s) o d) / 4).
      2:{ unfold qdisc. rewrite Ha. field. }
      unfold Rdiv. rewrite Rabs_mult, Rabs_Ropp, (Rabs_pos_eq (/ 4)) by lra. lra.
  Qed.

  (** tangent case, unit direction: the point of contact is returned *)
  Lemma sphere_unit_tangent s (o d : vec R 3) k t : 0 <= s_radius s -> rnorm d = 1 ->
    is_set_distance (fun p => p = s_origin s) (on_line o d) (s_radius s) ->
    on_sphere (s_origin s) (s_radius s) (along o d t) ->
    sphere_line_R s o d k k k = if k t then (Some (along o d t), None) else (None, None).
  Proof.
    intros Hr Hn Hm Ht. assert (Ha : rdot d d = 1) by (rewrite <- rnorm_sq, Hn; ring).
    assert (Hd : d <> rzero) by (intros E; rewrite E, rnorm_rzero in Hn; lra).
    pose proof (qdisc_distance _ (s_radius s) _ _ _ Hd Hm) as Eq.
    assert (Eq0 : qdisc (s_origin s) (s_radius s) o d = 0) by (rewrite Eq; ring).
    unfold sphere_line_R. rewrite Eq0.
    destruct (isGreater L eps 0 0) eqn:E1; [cmp_hyps HL He; lra|].
    rewrite (lr_zero_0 L HL) by exact He. rewrite Ha, Rmult_1_r.
    apply on_sphere_poly in Ht; [|exact Hr]. rewrite Ha in Ht.
    assert (Et : t = - qb (s_origin s) o d / 2).
    { unfold qdisc in Eq0. rewrite Ha in Eq0.
      assert (Hz : (2 * t + qb (s_origin s) o d) * (2 * t + qb (s_origin s) o d) = 0).
      { replace ((2 * t + qb (s_origin s) o d) * (2 * t + qb (s_origin s) o d)) with
          (4 * (1 * t * t + qb (s_origin s) o d * t + qc (s_origin s) (s_radius s) o) +
           (qb (s_origin s) o d * qb (s_origin s) o d - 4 * 1 * qc (s_origin s) (s_radius s) o)) by ring.
        rewrite Ht, Eq0. ring. }
      apply Rmult_integral in Hz as [Hz|Hz]; lra. }
    rewrite <- Et. reflexivity.
  Qed.

  Lemma line2_parallel (l r : line (RS M) 2) : det2 (l_dir l) (l_dir r) = 0 -> intersect_line2 L eps l r = None.
  Proof. intros H. rewrite line2_R, H, Rabs_R0, (lr_zero_0 L HL) by exact He. reflexivity. Qed.

  Lemma segment3_coplanar f g p : intersect_segment3 L eps f g = Some p ->
    let fd := rsub (g_target f) (g_source f) in
    let gd := rsub (g_target g) (g_source g) in
    exists t s, - eps <= t <= 1 + eps /\ - eps <= s <= 1 + eps /\ p = along (g_source f) fd t /\
      (forall u v, rdist p (along (g_source g) gd s) <= rdist (along (g_source f) fd u) (along (g_source g) gd v)) /\
      (forall q, on_line (g_source f) fd q -> on_line (g_source g) gd q -> p = q /\ p = along (g_source g) gd s).
  Proof.
    intros H fd gd. unfold intersect_segment3 in H.
    change (vsub (g_target f) (g_source f)) with fd in H. change (vsub (g_target g) (g_source g)) with gd in H.
    destruct (closest_params L eps (g_source f) fd (g_source g) gd) as [[t s]|] eqn:E; [|discriminate].
    cbn [s0 s1 RS] in H.
    destruct (isLess L eps s 0) eqn:E1; [discriminate|]. destruct (isGreater L eps s 1) eqn:E2; [discriminate|].
    destruct (isLess L eps t 0) eqn:E3; [discriminate|]. destruct (isGreater L eps t 1) eqn:E4; [discriminate|].
    cbn [orb] in H. apply Some_inj in H. cmp_hyps HL He. subst p. exists t, s.
    split; [lra|]. split; [lra|]. toR. split; [reflexivity|]. split.
    - intros u v. apply (closest_params_min HL eps (g_source f) fd (g_source g) gd t s He E).
    - intros q (u & Hu) (v & Hv). destruct (closest_common _ _ _ _ _ _ _ _ _ _ He E Hu Hv) as [-> ->].
      split; [now rewrite Hu|]. change (along (g_source f) fd t = along (g_source g) gd s). now rewrite <- Hu, <- Hv.
  Qed.

  Lemma segment_ray_coplanar g r p : intersect_segment_ray L eps g r = Some p ->
    let gd := rsub (g_target g) (g_source g) in
    exists t s, - eps <= t <= 1 + eps /\ - eps <= s /\ p = along (r_origin r) (r_dir r) s /\
      (forall u v, rdist (along (g_source g) gd t) p <= rdist (along (g_source g) gd u) (along (r_origin r) (r_dir r) v)) /\
      (forall q, on_line (g_source g) gd q -> on_line (r_origin r) (r_dir r) q -> p = q /\ p = along (g_source g) gd t).
  Proof.
    intros H gd. unfold intersect_segment_ray in H. change (vsub (g_target g) (g_source g)) with gd in H.
    destruct (closest_params L eps (g_source g) gd (r_origin r) (r_dir r)) as [[t s]|] eqn:E; [|discriminate].
    cbn [s0 s1 RS] in H.
    destruct (isLess L eps t 0) eqn:E3; [discriminate|]. destruct (isGreater L eps t 1) eqn:E4; [discriminate|].
    destruct (isLess L eps s 0) eqn:E1; [discriminate|].
    cbn [orb] in H. apply Some_inj in H. cmp_hyps HL He. subst p. exists t, s.
    split; [lra|]. split; [lra|]. toR. split; [reflexivity|]. split.
    - intros u v. apply (closest_params_min HL eps (g_source g) gd (r_origin r) (r_dir r) t s He E).
    - intros q (u & Hu) (v & Hv). destruct (closest_common _ _ _ _ _ _ _ _ _ _ He E Hu Hv) as [-> ->].
      split; [now rewrite Hv|]. change (along (r_origin r) (r_dir r) s = along (g_source g) gd t). now rewrite <- Hu, <- Hv.
  Qed.

  Lemma plane_source (p : plane (RS M)) :
    (forall r, on_plane (p_origin p) (p_normal p) (r_origin r) -> intersect_plane_ray L eps p r = None) /\
    (forall g, on_plane (p_origin p) (p_normal p) (g_source g) -> intersect_plane_segment L eps p g = None) /\
    (forall g, eps < 1 -> eps < Rabs (rdot (rsub (g_target g) (g_source g)) (p_normal p)) ->
       on_plane (p_origin p) (p_normal p) (g_target g) -> intersect_plane_segment L eps p g = Some (g_target g)).
  Proof.
    assert (H0 : forall o d : vec R 3, on_plane (p_origin p) (p_normal p) o ->
              rdot (rsub (p_origin p) o) (p_normal p) / rdot d (p_normal p) = 0).
    { intros o d H. unfold on_plane in H. replace (rdot (rsub (p_origin p) o) (p_normal p)) with 0; [unfold Rdiv; ring|].
      revert H. vdot. rewrite (rdot_comm _ o), (rdot_comm _ (p_origin p)). lra. }
    split; [|split].
    - intros r H. unfold intersect_plane_ray. rewrite plane_param_R. destruct (isZero L eps _); [reflexivity|].
      rewrite (H0 _ _ H). destruct (isGreater L eps _ _) eqn:E; [|reflexivity].
      apply (greater_t HL) in E; [|exact He]. cbn [s0 RS] in E. lra.
    - intros g H. unfold intersect_plane_segment. rewrite plane_param_R. destruct (isZero L eps _); [reflexivity|].
      rewrite (H0 _ _ H). destruct (isGreater L eps _ _) eqn:E; [|reflexivity].
      apply (greater_t HL) in E; [|exact He]. cbn [s0 RS] in E. lra.
    - intros g H1 Hd H. assert (E : g_target g = along (g_source g) (rsub (g_target g) (g_source g)) 1).
      { unfold along. rewrite rscale_1. symmetry. apply radd_rsub. }
      pose proof (plane_segment_complete p g 1 Hd) as Hc. rewrite <- E in Hc. apply Hc; [exact H|lra].
  Qed.

  Lemma unit_nonzero {n} (d : vec R n) : rnorm d = 1 -> d <> rzero.
  Proof. intros H E. rewrite E, rnorm_rzero in H. lra. Qed.

  Lemma tangent_exists (c o d : vec R 3) m : is_set_distance (fun p => p = c) (on_line o d) m ->
    exists t, on_sphere c m (along o d t).
  Proof. intros [_ (a & b & -> & (t & ->) & E)]. exists t. unfold on_sphere. rewrite rdist_sym. exact E. Qed.

  Lemma sphere_line_main (s : sphere (RS M)) (l : line (RS M) 3) (m : R) :
    0 <= s_radius s -> rnorm (l_dir l) = 1 ->
    is_set_distance (fun p => p = s_origin s) (on_line (l_origin l) (l_dir l)) m ->
    (eps < 4 * (s_radius s * s_radius s - m * m) ->
       forall p, hits (intersect_sphere_line L eps s l) p <->
         on_sphere (s_origin s) (s_radius s) p /\ on_line (l_origin l) (l_dir l) p) /\
    (m = s_radius s ->
       forall p, hits (intersect_sphere_line L eps s l) p <->
         on_sphere (s_origin s) (s_radius s) p /\ on_line (l_origin l) (l_dir l) p) /\
    (4 * (s_radius s * s_radius s - m * m) < - eps -> intersect_sphere_line L eps s l = (None, None)) /\
    (forall p, hits (intersect_sphere_line L eps s l) p ->
       on_line (l_origin l) (l_dir l) p /\
       (on_sphere (s_origin s) (s_radius s) p \/
        Rabs (rdist p (s_origin s) * rdist p (s_origin s) - s_radius s * s_radius s) <= eps / 4)).
  Proof.
    intros Hr Hn Hm. pose proof (unit_nonzero _ Hn) as Hd.
    assert (Ha : rdot (l_dir l) (l_dir l) = 1) by (rewrite <- rnorm_sq, Hn; ring).
    rewrite intersect_sphere_line_R. unfold hits. split; [|split; [|split]].
    - intros Hlt p.
      destruct (sphere_two s (l_origin l) (l_dir l) (fun _ => true) m Hr Hd Hm) as (t1 & t2 & _ & Hs & ->);
        [rewrite Ha; lra|]. cbn. split.
      + intros [E|E]; apply Some_inj in E; subst p; (split; [apply Hs; auto|onl]).
      + intros [Hp (t & ->)]. apply Hs in Hp as [-> | ->]; auto.
    - intros -> p. destruct (tangent_exists _ _ _ _ Hm) as (t & Ht).
      pose proof (sphere_unit_tangent s _ _ (fun _ => true) t Hr Hn Hm Ht) as E. cbn in E. split.
      + rewrite E. cbn. intros [H|H]; [|discriminate]. apply Some_inj in H. subst p. split; [exact Ht|onl].
      + intros [Hp (u & ->)].
        pose proof (sphere_unit_tangent s _ _ (fun _ => true) u Hr Hn Hm Hp) as E'. cbn in E'. rewrite E'. now left.
    - intros H. apply (sphere_none s _ _ _ m Hr Hd Hm). rewrite Ha. lra.
    - intros p H. destruct (sphere_unit_sound s _ _ _ Hr Hn p H) as (t & _ & -> & Hc). split; [onl|exact Hc].
  Qed.

  Lemma sphere_ray_main (s : sphere (RS M)) (r : ray (RS M) 3) (m : R) :
    0 <= s_radius s -> rnorm (r_dir r) = 1 ->
    is_set_distance (fun p => p = s_origin s) (on_line (r_origin r) (r_dir r)) m ->
    (eps < 4 * (s_radius s * s_radius s - m * m) \/ m = s_radius s ->
       (forall p, hits (intersect_sphere_ray L eps s r) p ->
          on_sphere (s_origin s) (s_radius s) p /\ exists t, - eps <= t /\ p = along (r_origin r) (r_dir r) t) /\
       (forall p, on_sphere (s_origin s) (s_radius s) p -> on_ray (r_origin r) (r_dir r) p ->
          hits (intersect_sphere_ray L eps s r) p)) /\
    (4 * (s_radius s * s_radius s - m * m) < - eps -> intersect_sphere_ray L eps s r = (None, None)) /\
    (forall p, hits (intersect_sphere_ray L eps s r) p ->
       (exists t, - eps <= t /\ p = along (r_origin r) (r_dir r) t) /\
       (on_sphere (s_origin s) (s_radius s) p \/
        Rabs (rdist p (s_origin s) * rdist p (s_origin s) - s_radius s * s_radius s) <= eps / 4)).
  Proof.
    intros Hr Hn Hm. pose proof (unit_nonzero _ Hn) as Hd.
    assert (Ha : rdot (r_dir r) (r_dir r) = 1) by (rewrite <- rnorm_sq, Hn; ring).
    rewrite intersect_sphere_ray_R. unfold hits. set (k := fun t => isGreaterEq L eps t 0).
    assert (Hk : forall t, k t = true -> - eps <= t).
    { intros t H. apply (lr_greatereq_1 L HL) in H; [|exact He]. lra. }
    assert (Hk' : forall t, 0 <= t -> k t = true).
    { intros t H. apply (lr_greatereq_0 L HL); [exact He|]. lra. }
    cbv zeta. fold k. split; [|split].
    - intros [Hlt| ->].
      + destruct (sphere_two s (r_origin r) (r_dir r) k m Hr Hd Hm) as (t1 & t2 & _ & Hs & ->);
          [rewrite Ha; lra|]. cbn [fst snd]. split.
        * intros p [E|E].
          -- destruct (k t1) eqn:Ek; [|discriminate]. apply Some_inj in E. subst p.
             split; [apply Hs; auto|exists t1; auto].
          -- destruct (k t2) eqn:Ek; [|discriminate]. apply Some_inj in E. subst p.
             split; [apply Hs; auto|exists t2; auto].
        * intros p Hp (t & Ht & ->). apply Hs in Hp as [-> | ->]; rewrite (Hk' _ Ht); auto.
      + split.
        * intros p H. destruct (tangent_exists _ _ _ _ Hm) as (t & Ht).
          rewrite (sphere_unit_tangent s _ _ k t Hr Hn Hm Ht) in H.
          destruct (k t) eqn:Ek; [|destruct H; discriminate]. destruct H as [H|H]; [|discriminate].
          cbn in H. apply Some_inj in H. subst p. split; [exact Ht|exists t; auto].
        * intros p Hp (u & Hu & ->). rewrite (sphere_unit_tangent s _ _ k u Hr Hn Hm Hp), (Hk' _ Hu). now left.
    - intros H. apply (sphere_none s _ _ _ m Hr Hd Hm). rewrite Ha. lra.
    - intros p H. destruct (sphere_unit_sound s _ _ _ Hr Hn p H) as (t & Ek & -> & Hc).
      split; [exists t; auto|exact Hc].
  Qed.

  Lemma sphere_segment_main (s : sphere (RS M)) (g : segment (RS M) 3) (m : R) :
    let d := rsub (g_target g) (g_source g) in
    0 <= s_radius s -> d <> rzero ->
    is_set_distance (fun p => p = s_origin s) (on_line (g_source g) d) m ->
    (eps < 4 * rdot d d * (s_radius s * s_radius s - m * m) ->
       (forall p, hits (intersect_sphere_segment L eps s g) p ->
          on_sphere (s_origin s) (s_radius s) p /\ exists t, - eps <= t <= 1 + eps /\ p = along (g_source g) d t) /\
       (forall p, on_sphere (s_origin s) (s_radius s) p -> on_segment (g_source g) (g_target g) p ->
          hits (intersect_sphere_segment L eps s g) p)) /\
    (4 * rdot d d * (s_radius s * s_radius s - m * m) < - eps -> intersect_sphere_segment L eps s g = (None, None)).
  Proof.
    intros d Hr Hd Hm. rewrite intersect_sphere_segment_R. unfold hits.
    set (k := fun t => isGreaterEq L eps t 0 && isLessEq L eps t 1).
    assert (Hk : forall t, k t = true -> - eps <= t <= 1 + eps).
    { intros t H. apply andb_prop in H as [H1 H2]. apply (lr_greatereq_1 L HL) in H1; [|exact He].
      apply (lr_lesseq_1 L HL) in H2; [|exact He]. lra. }
    assert (Hk' : forall t, 0 <= t <= 1 -> k t = true).
    { intros t H. apply andb_true_intro. split; [apply (lr_greatereq_0 L HL)|apply (lr_lesseq_0 L HL)]; (exact He || lra). }
    cbv zeta. fold k. fold d. split.
    - intros Hlt.
      destruct (sphere_two s (g_source g) d k m Hr Hd Hm Hlt) as (t1 & t2 & _ & Hs & ->). cbn [fst snd]. split.
      + intros p [E|E].
        * destruct (k t1) eqn:Ek; [|discriminate]. apply Some_inj in E. subst p.
          split; [apply Hs; auto|exists t1; auto].
        * destruct (k t2) eqn:Ek; [|discriminate]. apply Some_inj in E. subst p.
          split; [apply Hs; auto|exists t2; auto].
      + intros p Hp (t & Ht & ->). apply Hs in Hp as [-> | ->]; rewrite (Hk' _ Ht); auto.
    - intros H. apply (sphere_none s _ _ _ m Hr Hd Hm H).
  Qed.
End Inter.

(** ** Witnesses of the refuted claims *)
Section Witness.
  Context {M : R} {L : Linal (RS M)} (HL : LinalR L).

  Lemma segment3_skew h : leps L < 1 -> 0 <= h ->
    let f := @mkSegment (RS M) 3 (mk3 0 0 0) (mk3 2 0 0) in
    let g := @mkSegment (RS M) 3 (mk3 1 (-1) h) (mk3 1 1 h) in
    intersect_segment3 L (leps L) f g = Some (mk3 1 0 0) /\
    is_set_distance (on_segment (g_source f) (g_target f)) (on_segment (g_source g) (g_target g)) h.
  Proof.
    intros Hl Hh f g. pose proof (lr_eps L HL) as He. split.
    - unfold intersect_segment3. rewrite (closest_params_gram (M := M)). unfold gram. cbn.
      destruct (isZero L (leps L) _) eqn:E.
      { apply (zero_t HL) in E; [|exact He]. lra. }
      match goal with |- context [isLess L _ ?s 0 || isGreater L _ ?s 1 || isLess L _ ?t 0 || _] =>
        replace s with (/ 2) by (field; lra); replace t with (/ 2) by (field; lra) end.
      destruct (isLess L (leps L) _ 0) eqn:E1; [cmp_hyps HL He; lra|].
      destruct (isGreater L (leps L) _ 1) eqn:E2; [cmp_hyps HL He; lra|]. cbn. unfold mk3.
      f_equal. apply f_equal2; [field|]. apply f_equal2; [ring|]. apply f_equal2; [ring|reflexivity].
    - split.
      + intros a b (t & _ & ->) (s & _ & ->). apply sq_le; [apply rdist_nonneg|]. rewrite rdist_sq. unfold along. cbn.
        match goal with |- _ <= ?a * ?a + (?b * ?b + (?c * ?c + 0)) =>
          assert (H1 := Rle_0_sqr a); assert (H2 := Rle_0_sqr b); assert (H3 : c * c = h * h) by ring end.
        unfold Rsqr in *. lra.
      + exists (mk3 1 0 0), (mk3 1 0 h). split; [|split].
        * exists (/ 2). split; [lra|]. unfold along, mk3. cbn. repeat (apply f_equal2; [field|]). reflexivity.
        * exists (/ 2). split; [lra|]. unfold along, mk3. cbn. repeat (apply f_equal2; [field|]). reflexivity.
        * apply sq_eq; [apply rdist_nonneg|exact Hh|]. rewrite rdist_sq. cbn. ring.
  Qed.

  Lemma segment_ray_skew h : leps L < 1 -> 0 <= h ->
    let g := @mkSegment (RS M) 3 (mk3 1 (-1) h) (mk3 1 1 h) in
    let r := @mkRay (RS M) 3 (mk3 0 0 0) (mk3 1 0 0) in
    intersect_segment_ray L (leps L) g r = Some (mk3 1 0 0) /\
    is_set_distance (on_segment (g_source g) (g_target g)) (on_ray (r_origin r) (r_dir r)) h.
  Proof.
    intros Hl Hh g r. pose proof (lr_eps L HL) as He. split.
    - unfold intersect_segment_ray. rewrite (closest_params_gram (M := M)). unfold gram. cbn.
      destruct (isZero L (leps L) _) eqn:E.
      { apply (zero_t HL) in E; [|exact He]. lra. }
      match goal with |- context [isLess L _ ?t 0 || isGreater L _ ?t 1 || isLess L _ ?s 0] =>
        replace s with 1 by (field; lra); replace t with (/ 2) by (field; lra) end.
      destruct (isLess L (leps L) (/ 2) 0) eqn:E1; [cmp_hyps HL He; lra|].
      destruct (isGreater L (leps L) _ 1) eqn:E2; [cmp_hyps HL He; lra|].
      destruct (isLess L (leps L) 1 0) eqn:E3; [cmp_hyps HL He; lra|]. cbn. unfold mk3.
      f_equal. apply f_equal2; [field|]. apply f_equal2; [ring|]. apply f_equal2; [ring|reflexivity].
    - split.
      + intros a b (t & _ & ->) (s & _ & ->). apply sq_le; [apply rdist_nonneg|]. rewrite rdist_sq. unfold along. cbn.
        match goal with |- _ <= ?a * ?a + (?b * ?b + (?c * ?c + 0)) =>
          assert (H1 := Rle_0_sqr a); assert (H2 := Rle_0_sqr b); assert (H3 : c * c = h * h) by ring end.
        unfold Rsqr in *. lra.
      + exists (mk3 1 0 h), (mk3 1 0 0). split; [|split].
        * exists (/ 2). split; [lra|]. unfold along, mk3. cbn. repeat (apply f_equal2; [field|]). reflexivity.
        * exists 1. split; [lra|]. unfold along, mk3. cbn. repeat (apply f_equal2; [field|]). reflexivity.
        * apply sq_eq; [apply rdist_nonneg|exact Hh|]. rewrite rdist_sq. cbn. ring.
  Qed.

  Lemma tangent_missed : leps L < 1 ->
    let s := @mkSphere (RS M) (mk3 0 0 0) 1 in
    let g := @mkSegment (RS M) 3 (mk3 (-2) 1 0) (mk3 2 1 0) in
    on_sphere (s_origin s) (s_radius s) (mk3 0 1 0) /\ on_segment (g_source g) (g_target g) (mk3 0 1 0) /\
    intersect_sphere_segment L (leps L) s g = (None, None).
  Proof.
    intros Hl s g. pose proof (lr_eps L HL) as He. split; [|split].
    - apply sq_eq; [apply rdist_nonneg|cbn; lra|]. rewrite rdist_sq. cbn. ring.
    - exists (/ 2). split; [lra|]. unfold along, mk3. cbn. repeat (apply f_equal2; [field|]). reflexivity.
    - rewrite intersect_sphere_segment_R. cbv zeta. unfold sphere_line_R, qdisc, qb, qc. cbn.
      match goal with |- context [isGreater L _ ?x 0] => replace x with 0 by ring end.
      destruct (isGreater L (leps L) 0 0) eqn:E1; [cmp_hyps HL He; lra|].
      rewrite (lr_zero_0 L HL) by exact He.
      match goal with |- context [isLessEq L _ ?x 1] => replace x with 128 by field end.
      destruct (isLessEq L (leps L) 128 1) eqn:E2; [cmp_hyps HL He; lra|]. rewrite andb_false_r. reflexivity.
  Qed.

  Lemma tangent_unsound :
    let s := @mkSphere (RS M) (mk3 0 0 0) (/ 100) in
    let g := @mkSegment (RS M) 3 (mk3 (- / 4) (/ 100) 0) (mk3 (/ 4) (/ 100) 0) in
    exists p, hits (intersect_sphere_segment L (leps L) s g) p /\ rdist p (s_origin s) > s_radius s + / 5.
  Proof.
    intros s g. pose proof (lr_eps L HL) as He.
    exists (along (g_source g) (rsub (g_target g) (g_source g)) (/ 32)). split.
    - left. rewrite intersect_sphere_segment_R. cbv zeta. unfold sphere_line_R.
      replace (qdisc (s_origin s) (s_radius s) (g_source g) (rsub (g_target g) (g_source g))) with 0
        by (unfold qdisc, qb, qc; cbn; field).
      destruct (isGreater L (leps L) 0 0) eqn:E1; [cmp_hyps HL He; lra|].
      rewrite (lr_zero_0 L HL) by exact He.
      replace (- qb (s_origin s) (g_source g) (rsub (g_target g) (g_source g)) / 2 *
         rdot (rsub (g_target g) (g_source g)) (rsub (g_target g) (g_source g))) with (/ 32)
        by (unfold qb; cbn; field).
      rewrite (lr_greatereq_0 L HL), (lr_lesseq_0 L HL) by (exact He || lra). reflexivity.
    - apply Rnot_le_gt. intros H.
      assert (Hs : rdist (along (g_source g) (rsub (g_target g) (g_source g)) (/ 32)) (s_origin s) *
                   rdist (along (g_source g) (rsub (g_target g) (g_source g)) (/ 32)) (s_origin s) <=
                   (s_radius s + / 5) * (s_radius s + / 5)).
      { apply Rmult_le_compat; auto using rdist_nonneg. }
      rewrite rdist_sq in Hs. unfold along in Hs. cbn in Hs. lra.
  Qed.
End Witness.
