(** * Proofs about intervals and boxes *)

From Coq Require Import Reals Lra Psatz List Bool Arith Lia.
From Verif Require Import Scalar Linal Result SpecReal VecR VecLemmas SpecBox ModelBox.
Import ListNotations.
Local Open Scope R_scope.

Section Interval.
  Context {M : R} {L : Linal (RS M)} (HL : LinalR L).
  Let e : R := leps L.
  Let He : 0 <= leps L := lr_eps L HL.

  Lemma interval_cases (a b c d : R) (out : interval (RS M)) :
    a <= b -> c <= d ->
    let r := intersect_interval L (mkInterval (S := RS M) a b) (mkInterval (S := RS M) c d) out in
    (fst r = 0%nat /\ snd r = out /\ (b < c \/ d < a)) \/
    (fst r = 1%nat /\ i_end (snd r) = i_end out /\
     ((Rabs (b - c) <= e /\ i_start (snd r) = b) \/ (Rabs (a - d) <= e /\ i_start (snd r) = a))) \/
    (fst r = 2%nat /\ c < b /\ a < d /\
     Rmax a c - e <= i_start (snd r) <= Rmax a c /\
     Rmin b d <= i_end (snd r) <= Rmin b d + e /\ i_start (snd r) <= i_end (snd r)).
  Proof.
    intros Hab Hcd. cbn zeta. unfold intersect_interval. cbn [i_start i_end]. fold e.
    assert (He' : 0 <= e) by exact He.
    destruct (isLess L e b c) eqn:E1; cbn [orb].
    { left; cbn. cmp_hyps HL He'. tauto. }
    destruct (isGreater L e a d) eqn:E2.
    { left; cbn. cmp_hyps HL He'. tauto. }
    right. destruct (isGreater L e b c) eqn:E3.
    - destruct (isLess L e a d) eqn:E4.
      + right. cbn.
        assert (Hs : Rmax a c - e <= (if isLess L e a c then c else a) <= Rmax a c /\
                     ((if isLess L e a c then c else a) = a \/ (if isLess L e a c then c else a) = c)).
        { destruct (isLess L e a c) eqn:E5; cmp_hyps HL He'; split; auto;
            unfold Rmax; destruct (Rle_dec a c); lra. }
        assert (Ht : Rmin b d <= (if isGreater L e b d then d else b) <= Rmin b d + e /\
                     ((if isGreater L e b d then d else b) = b \/ (if isGreater L e b d then d else b) = d)).
        { destruct (isGreater L e b d) eqn:E5; cmp_hyps HL He'; split; auto;
            unfold Rmin; destruct (Rle_dec b d); lra. }
        cmp_hyps HL He'. repeat split; try tauto.
        destruct Hs as [_ [-> | ->]], Ht as [_ [-> | ->]]; lra.
      + left; cbn. cmp_hyps HL He'. repeat split; auto. right; split; [|reflexivity].
        apply Rabs_le; lra.
    - left; cbn. cmp_hyps HL He'. repeat split; auto. left; split; [|reflexivity].
      apply Rabs_le; lra.
  Qed.

  Lemma interval_complete (a b c d : R) (out : interval (RS M)) :
    a <= b -> c <= d ->
    let r := intersect_interval L (mkInterval (S := RS M) a b) (mkInterval (S := RS M) c d) out in
    ((b + e < c \/ d + e < a) -> fst r = 0%nat) /\
    (c + e < b -> a + e < d -> fst r = 2%nat) /\
    ((b = c \/ a = d) -> fst r = 1%nat).
  Proof.
    intros Hab Hcd. cbn zeta. unfold intersect_interval. cbn [i_start i_end]. fold e.
    assert (He' : 0 <= e) by exact He.
    split; [|split].
    - intros H. cmp_split; cbn; cmp_hyps HL He'; try reflexivity; lra.
    - intros H1 H2. cmp_split; cbn; cmp_hyps HL He'; try reflexivity; lra.
    - intros H. cmp_split; cbn; cmp_hyps HL He'; try reflexivity; destruct H; lra.
  Qed.

  (** touching intervals: the reported point is the common point up to eps *)
  Lemma interval_touch (a b c d : R) (out : interval (RS M)) :
    a <= b -> c <= d ->
    let r := intersect_interval L (mkInterval (S := RS M) a b) (mkInterval (S := RS M) c d) out in
    (b = c -> Rabs (i_start (snd r) - b) <= e) /\ (a = d -> Rabs (i_start (snd r) - a) <= e).
  Proof.
    intros Hab Hcd. cbn zeta. unfold intersect_interval. cbn [i_start i_end]. fold e.
    assert (He' : 0 <= e) by exact He.
    split; intros H; cmp_split; cbn; cmp_hyps HL He'; try (apply Rabs_le; lra); exfalso; lra.
  Qed.
End Interval.

(** ** growing boxes *)
Section Grow.
  Context {M : R} {L : Linal (RS M)} (HL : LinalR L) (n : nat).
  Let e : R := leps L.
  Let He : 0 <= leps L := lr_eps L HL.

  Inductive grow := GPoint (p : vec R n) | GBox (b : aabb (RS M) n).

  Definition grow_step (b : aabb (RS M) n) (g : grow) : aabb (RS M) n :=
    match g with
    | GPoint p => aabb_add_point L b p
    | GBox o => aabb_add_box L b o
    end.
  Definition glo (g : grow) : vec R n := match g with GPoint p => p | GBox b => a_min b end.
  Definition ghi (g : grow) : vec R n := match g with GPoint p => p | GBox b => a_max b end.

  Lemma grow_step_min b g i : (i < n)%nat ->
    comp i (a_min (grow_step b g)) =
    if isLess L e (comp i (glo g)) (comp i (a_min b)) then comp i (glo g) else comp i (a_min b).
  Proof.
    intros Hi. destruct g; cbn [grow_step aabb_add_point aabb_add_box a_min glo]; unfold comp;
      rewrite (vnth_vmap2 0 0 0) by exact Hi; reflexivity.
  Qed.
  Lemma grow_step_max b g i : (i < n)%nat ->
    comp i (a_max (grow_step b g)) =
    if isGreater L e (comp i (ghi g)) (comp i (a_max b)) then comp i (ghi g) else comp i (a_max b).
  Proof.
    intros Hi. destruct g; cbn [grow_step aabb_add_point aabb_add_box a_max ghi]; unfold comp;
      rewrite (vnth_vmap2 0 0 0) by exact Hi; reflexivity.
  Qed.

  Lemma grow_covers gs : forall b i, (i < n)%nat ->
    let r := fold_left grow_step gs b in
    (comp i (a_min r) <= comp i (a_min b) /\ comp i (a_max b) <= comp i (a_max r)) /\
    (forall g, In g gs -> comp i (a_min r) <= comp i (glo g) + e /\ comp i (ghi g) <= comp i (a_max r) + e) /\
    In (comp i (a_min r)) (comp i (a_min b) :: map (fun g => comp i (glo g)) gs) /\
    In (comp i (a_max r)) (comp i (a_max b) :: map (fun g => comp i (ghi g)) gs).
  Proof.
    assert (He' : 0 <= e) by exact He.
    induction gs as [|g gs IH]; intros b i Hi; cbn zeta; cbn [fold_left].
    - split; [split; lra|]. split; [intros g []|]. cbn; auto.
    - destruct (IH (grow_step b g) i Hi) as ([Hmn Hmx] & Hcov & Imn & Imx).
      rewrite grow_step_min in Hmn by assumption. rewrite grow_step_max in Hmx by assumption.
      set (r := fold_left grow_step gs (grow_step b g)) in *.
      assert (H1 : comp i (a_min r) <= comp i (a_min b) /\ comp i (a_min r) <= comp i (glo g) + e).
      { destruct (isLess L e (comp i (glo g)) (comp i (a_min b))) eqn:E; cmp_hyps HL He'; lra. }
      assert (H2 : comp i (a_max b) <= comp i (a_max r) /\ comp i (ghi g) <= comp i (a_max r) + e).
      { destruct (isGreater L e (comp i (ghi g)) (comp i (a_max b))) eqn:E; cmp_hyps HL He'; lra. }
      split; [tauto|]. split.
      + intros g' [<-|Hg]; [tauto|auto].
      + cbn [map]. rewrite grow_step_min in Imn by assumption. rewrite grow_step_max in Imx by assumption.
        split.
        * destruct Imn as [Imn|Imn]; [|right; right; exact Imn].
          destruct (isLess _ _ _ _); [right; left|left]; exact Imn.
        * destruct Imx as [Imx|Imx]; [|right; right; exact Imx].
          destruct (isGreater _ _ _ _); [right; left|left]; exact Imx.
  Qed.
End Grow.

Arguments GPoint {M n} _.
Arguments GBox {M n} _.

(** ** validity, emptiness, centre, equality *)
Section Misc.
  Context {M : R} {L : Linal (RS M)} (HL : LinalR L).
  Let e : R := leps L.
  Let He : 0 <= leps L := lr_eps L HL.

  Lemma valid_sound n (b : aabb (RS M) n) :
    aabb_is_valid L b = true -> forall i, (i < n)%nat -> comp i (a_min b) < comp i (a_max b).
  Proof.
    unfold aabb_is_valid. rewrite negb_true_iff. intros H i Hi.
    rewrite (vex2_false 0 0) in H. specialize (H i Hi). apply (greatereq_f HL) in H; assumption.
  Qed.
  Lemma valid_complete n (b : aabb (RS M) n) :
    (forall i, (i < n)%nat -> comp i (a_min b) + e < comp i (a_max b)) -> aabb_is_valid L b = true.
  Proof.
    intros H. unfold aabb_is_valid. rewrite negb_true_iff. rewrite (vex2_false 0 0). intros i Hi.
    specialize (H i Hi). unfold comp in H. destruct (isGreaterEq _ _ _ _) eqn:E; [|reflexivity].
    apply (greatereq_t HL) in E; [|exact He]. unfold e in H. cbn in *. lra.
  Qed.
  Lemma empty_sound n (b : aabb (RS M) n) :
    aabb_is_empty L b = true -> exists i, (i < n)%nat /\ comp i (a_max b) < comp i (a_min b).
  Proof.
    unfold aabb_is_empty. intros H. rewrite (vex2_true 0 0) in H. destruct H as (i & Hi & H).
    exists i; split; [assumption|]. now apply (greater_t HL) in H.
  Qed.
  Lemma empty_complete n (b : aabb (RS M) n) i :
    (i < n)%nat -> comp i (a_max b) + e < comp i (a_min b) -> aabb_is_empty L b = true.
  Proof.
    intros Hi H. unfold aabb_is_empty. rewrite (vex2_true 0 0). exists i. split; [assumption|].
    apply (lr_greater_0 L HL); assumption.
  Qed.
  Lemma center_comp n (b : aabb (RS M) n) i :
    (i < n)%nat -> comp i (aabb_center b) = (comp i (a_min b) + comp i (a_max b)) / 2.
  Proof.
    intros Hi. unfold comp, aabb_center, vadd, vdivs, vsub.
    rewrite (vnth_vmap2 0 0 0) by assumption. rewrite (vnth_vmap 0 0) by assumption.
    rewrite (vnth_vmap2 0 0 0) by assumption. cbn. field.
  Qed.
  Lemma is_equal_sound n (u v : vec R n) :
    @is_equal (RS M) L n u v = true -> forall i, (i < n)%nat -> Rabs (comp i u - comp i v) <= e.
  Proof.
    unfold is_equal. intros H i Hi. rewrite (vall2_true 0 0) in H. specialize (H i Hi).
    apply (lr_eq_1 L HL); assumption.
  Qed.
  Lemma is_equal_refl n (u : vec R n) : @is_equal (RS M) L n u u = true.
  Proof. unfold is_equal. apply vall2_refl. intros a. apply (lr_eq_0 L HL). exact He. Qed.
  Lemma aabb_eq_sound n (a b : aabb (RS M) n) :
    aabb_eq L a b = true -> forall i, (i < n)%nat ->
      Rabs (comp i (a_min a) - comp i (a_min b)) <= e /\ Rabs (comp i (a_max a) - comp i (a_max b)) <= e.
  Proof.
    unfold aabb_eq. rewrite andb_true_iff. intros [H1 H2] i Hi.
    split; [apply (is_equal_sound n _ _ H1)|apply (is_equal_sound n _ _ H2)]; assumption.
  Qed.
  Lemma aabb_eq_refl n (a : aabb (RS M) n) : aabb_eq L a a = true.
  Proof. unfold aabb_eq. now rewrite !is_equal_refl. Qed.
End Misc.

(** ** extreme points *)
Section Extreme.
  Context {M : R} {L : Linal (RS M)} (HL : LinalR L).
  Let He : 0 <= leps L := lr_eps L HL.

  Lemma extreme_fold n (dir : vec R n) pts : forall mn mx : R,
    let r := fold_left (@extreme_step (RS M) n dir) pts (mn, mx) in
    let projs := map (fun p => rdot p dir) pts in
    In (fst r : R) (mn :: projs) /\ (forall x, In x (mn :: projs) -> fst r <= x) /\
    In (snd r : R) (mx :: projs) /\ (forall x, In x (mx :: projs) -> x <= snd r).
  Proof.
    induction pts as [|p pts IH]; intros mn mx; cbn zeta; cbn [fold_left map].
    - cbn. repeat split; auto; intros x [<-|[]]; lra.
    - unfold extreme_step at 2 4 6 8. cbn [fst snd]. rewrite !dot_R. cbn [sltb RS].
      set (mn' := if Rltb (rdot p dir) mn then rdot p dir else mn).
      set (mx' := if Rltb mx (rdot p dir) then rdot p dir else mx).
      destruct (IH mn' mx') as (I1 & B1 & I2 & B2).
      cbn zeta in *. set (r := fold_left _ pts _) in *. clearbody r.
      assert (Hmn : (mn' = mn \/ mn' = rdot p dir) /\ mn' <= mn /\ mn' <= rdot p dir).
      { unfold mn'. destruct (Rltb (rdot p dir) mn) eqn:E; [apply Rltb_true in E|apply Rltb_false in E]; split; auto; lra. }
      assert (Hmx : (mx' = mx \/ mx' = rdot p dir) /\ mx <= mx' /\ rdot p dir <= mx').
      { unfold mx'. destruct (Rltb mx (rdot p dir)) eqn:E; [apply Rltb_true in E|apply Rltb_false in E]; split; auto; lra. }
      clearbody mn' mx'.
      pose proof (B1 mn' ltac:(now left)). pose proof (B2 mx' ltac:(now left)).
      repeat split.
      + destruct I1 as [<-|I1]; [destruct Hmn as [[-> | ->] _]; cbn; auto|cbn; auto].
      + intros x [<-|[<-|Hx]]; try lra. apply B1; now right.
      + destruct I2 as [<-|I2]; [destruct Hmx as [[-> | ->] _]; cbn; auto|cbn; auto].
      + intros x [<-|[<-|Hx]]; try lra. apply B2; now right.
  Qed.

  (** with all projections in the range of the type, the sentinels are harmless *)
  Lemma extreme_min_max n (dir : vec R n) pts :
    pts <> [] -> (forall p, In p pts -> - M <= rdot p dir <= M) ->
    let r := fold_left (@extreme_step (RS M) n dir) pts (M, - M) in
    is_min (map (fun p => rdot p dir) pts) (fst r) /\ is_max (map (fun p => rdot p dir) pts) (snd r).
  Proof.
    intros Hne Hr. destruct (extreme_fold n dir pts M (- M)) as (I1 & B1 & I2 & B2).
    cbn zeta in *. set (r := fold_left (@extreme_step (RS M) n dir) pts (M, - M)) in *. clearbody r.
    destruct pts as [|p0 pts]; [contradiction|].
    assert (H0 : In (rdot p0 dir) (map (fun p => rdot p dir) (p0 :: pts))) by (now left).
    pose proof (Hr p0 (or_introl eq_refl)) as Hp0.
    split; (split; [|intros x Hx; first [apply B1|apply B2]; now right]).
    - destruct I1 as [E|I1]; [|exact I1].
      pose proof (B1 _ (or_intror H0)). replace (fst r : R) with (rdot p0 dir); [exact H0|]. cbn in *; lra.
    - destruct I2 as [E|I2]; [|exact I2].
      pose proof (B2 _ (or_intror H0)). replace (snd r : R) with (rdot p0 dir); [exact H0|]. cbn in *; lra.
  Qed.

  Lemma extreme_points_R dbg n (dir : vec R n) pts :
    pts <> [] -> rnorm dir = 1 -> (forall p, In p pts -> - M <= rdot p dir <= M) ->
    exists mn mx, extreme_points L dbg dir pts = Ok (mn, mx) /\
      is_min (map (fun p => rdot p dir) pts) mn /\ is_max (map (fun p => rdot p dir) pts) mx.
  Proof.
    intros Hne Hd Hr. unfold extreme_points.
    rewrite geo_assert_true by (destruct pts; [contradiction|reflexivity]). cbn [bind].
    rewrite geo_assert_true by (rewrite vlength_R, Hd; apply (lr_eq_0 L HL); exact He). cbn [bind].
    destruct (extreme_min_max n dir pts Hne Hr) as [H1 H2].
    cbn [smax slowest RS]. destruct (fold_left _ pts _) as [mn mx]. exists mn, mx. auto.
  Qed.

  Lemma rdot_axis n i (p : vec R n) : (i < n)%nat -> rdot p (@axis_vec (RS M) n i) = comp i p.
  Proof.
    unfold comp. revert i; induction n as [|n IH]; intros i Hi; [lia|].
    destruct i as [|i]; cbn.
    - change (vconst n 0) with (@rzero n). rewrite rdot_zero_r. ring.
    - rewrite IH by lia. ring.
  Qed.
  Lemma rdot_axis_self n i : (i < n)%nat -> rdot (@axis_vec (RS M) n i) (@axis_vec (RS M) n i) = 1.
  Proof.
    revert i; induction n as [|n IH]; intros i Hi; [lia|].
    destruct i as [|i]; cbn.
    - change (vconst n 0) with (@rzero n). rewrite rdot_zero_r. ring.
    - rewrite IH by lia. ring.
  Qed.
  Lemma axis_norm n i : (i < n)%nat -> rnorm (@axis_vec (RS M) n i) = 1.
  Proof. intros Hi. unfold rnorm. rewrite rdot_axis_self by assumption. apply sqrt_1. Qed.

  Lemma make_aabb_result dbg (pts : list (vec R 3)) :
    pts <> [] -> (forall p i, In p pts -> (i < 3)%nat -> - M <= comp i p <= M) ->
    exists mn mx : vec R 3,
      (forall i, (i < 3)%nat -> is_min (map (comp i) pts) (comp i mn) /\ is_max (map (comp i) pts) (comp i mx)) /\
      @make_aabb (RS M) L dbg pts = @aabb_make (RS M) L dbg 3 mn mx.
  Proof.
    intros Hne Hr. unfold make_aabb.
    rewrite geo_assert_true by (destruct pts; [contradiction|reflexivity]). cbn [bind].
    assert (Hax : forall i, (i < 3)%nat -> exists mn mx,
       @extreme_points (RS M) L dbg 3 (axis_vec 3 i) pts = Ok (mn, mx) /\
       is_min (map (comp i) pts) mn /\ is_max (map (comp i) pts) mx).
    { intros i Hi. destruct (extreme_points_R dbg 3 (@axis_vec (RS M) 3 i) pts Hne (axis_norm 3 i Hi)) as (mn & mx & E & Hm & HM).
      - intros p Hp. rewrite rdot_axis by assumption. auto.
      - exists mn, mx. split; [exact E|].
        rewrite (map_ext (fun p : vec R 3 => rdot p (@axis_vec (RS M) 3 i)) (comp i)) in Hm, HM
          by (intros p; apply rdot_axis; assumption). auto. }
    destruct (Hax 0%nat ltac:(lia)) as (n0 & x0 & -> & A0 & B0).
    destruct (Hax 1%nat ltac:(lia)) as (n1 & x1 & -> & A1 & B1).
    destruct (Hax 2%nat ltac:(lia)) as (n2 & x2 & -> & A2 & B2).
    cbn [bind fst snd].
    exists (mk3 n0 n1 n2), (mk3 x0 x1 x2). split; [|reflexivity].
    intros i Hi. destruct i as [|[|[|i]]]; cbn; auto; lia.
  Qed.
End Extreme.

(** ** box / box *)
Section BoxBox.
  Context {M : R} {L : Linal (RS M)} (HL : LinalR L).
  Let e : R := leps L.
  Let He : 0 <= leps L := lr_eps L HL.

  Lemma bounds_nth n (b : aabb (RS M) n) i : (i < n)%nat ->
    vnth (0, 0) i (bounds b) = (comp i (a_min b), comp i (a_max b)).
  Proof. intros Hi. unfold bounds, comp. rewrite (vnth_vmap2 0 0 (0, 0)) by assumption. reflexivity. Qed.

  Lemma intersecting_sound n (a b : aabb (RS M) n) :
    aabb_is_intersecting L a b = true ->
    forall i, (i < n)%nat -> comp i (a_min b) < comp i (a_max a) /\ comp i (a_min a) < comp i (a_max b).
  Proof.
    unfold aabb_is_intersecting. rewrite negb_true_iff. intros H i Hi.
    rewrite (vex2_false (0, 0) (0, 0)) in H. specialize (H i Hi).
    rewrite !bounds_nth in H by assumption. unfold axis_apart in H. cbn [fst snd] in H.
    apply orb_false_iff in H as [H1 H2]. cmp_hyps HL He. auto.
  Qed.
  Lemma intersecting_complete n (a b : aabb (RS M) n) :
    (forall i, (i < n)%nat -> comp i (a_min b) + e < comp i (a_max a) /\ comp i (a_min a) + e < comp i (a_max b)) ->
    aabb_is_intersecting L a b = true.
  Proof.
    intros H. unfold aabb_is_intersecting. rewrite negb_true_iff.
    rewrite (vex2_false (0, 0) (0, 0)). intros i Hi. specialize (H i Hi).
    rewrite !bounds_nth by assumption. unfold axis_apart. cbn [fst snd]. unfold e in H.
    apply orb_false_iff; split.
    - destruct (isLessEq _ _ _ _) eqn:E; [|reflexivity]. cmp_hyps HL He. lra.
    - destruct (isGreaterEq _ _ _ _) eqn:E; [|reflexivity]. cmp_hyps HL He. lra.
  Qed.

  Lemma intersect_false n fill dbg (a b : aabb (RS M) n) :
    aabb_is_intersecting L a b = false -> aabb_intersect L fill dbg a b = Ok (aabb_default fill n).
  Proof. unfold aabb_is_intersecting, aabb_intersect. rewrite negb_false_iff. now intros ->. Qed.

  Lemma std_max_R (a b : R) : @std_max (RS M) a b = Rmax a b.
  Proof. unfold std_max, Rmax; cbn. unfold Rltb. destruct (Rlt_dec a b), (Rle_dec a b); lra. Qed.
  Lemma std_min_R (a b : R) : @std_min (RS M) a b = Rmin a b.
  Proof. unfold std_min, Rmin; cbn. unfold Rltb. destruct (Rlt_dec b a), (Rle_dec a b); lra. Qed.

  Lemma intersect_true n fill dbg (a b r : aabb (RS M) n) :
    aabb_is_intersecting L a b = true -> aabb_intersect L fill dbg a b = Ok r ->
    forall x : vec R n, in_box (a_min r) (a_max r) x <->
      in_box (a_min a) (a_max a) x /\ in_box (a_min b) (a_max b) x.
  Proof.
    unfold aabb_is_intersecting, aabb_intersect. rewrite negb_true_iff. intros -> H x.
    unfold aabb_make in H. destruct (geo_assert _ _) in H; cbn [bind] in H; try discriminate.
    apply Ok_inj in H. subst r. cbn [a_min a_max].
    unfold in_box. split.
    - intros H; split; intros i Hi; specialize (H i Hi); unfold comp in H;
        rewrite !(vnth_vmap2 0 0 0) in H by assumption; rewrite std_max_R, std_min_R in H; unfold comp;
        unfold Rmax, Rmin in H; destruct (Rle_dec _ _), (Rle_dec _ _); lra.
    - intros [H1 H2] i Hi. specialize (H1 i Hi). specialize (H2 i Hi). unfold comp in *.
      rewrite !(vnth_vmap2 0 0 0) by assumption. rewrite std_max_R, std_min_R.
      unfold Rmax, Rmin; destruct (Rle_dec _ _), (Rle_dec _ _); lra.
  Qed.

  (** with mirrored comparisons the test is symmetric and a debug build does not trap *)
  Definition mirrored : Prop := forall e a b, isGreaterEq L e a b = isLessEq L e b a.

  Lemma intersecting_sym n (a b : aabb (RS M) n) : mirrored ->
    aabb_is_intersecting L a b = aabb_is_intersecting L b a.
  Proof.
    intros Hm. unfold aabb_is_intersecting. f_equal.
    apply eq_true_iff_eq. rewrite !(vex2_true (0, 0) (0, 0)).
    split; intros (i & Hi & H); exists i; (split; [assumption|]); unfold axis_apart in *;
      rewrite orb_comm; rewrite !Hm in *; exact H.
  Qed.

  Lemma intersect_no_trap n fill dbg (a b : aabb (RS M) n) : mirrored ->
    aabb_is_valid L a = true -> aabb_is_valid L b = true ->
    exists r, aabb_intersect L fill dbg a b = Ok r.
  Proof.
    intros Hm Va Vb. unfold aabb_intersect.
    destruct (vex2 _ _ _) eqn:E; [eexists; reflexivity|].
    unfold aabb_make. assert (V : aabb_is_valid L (mkAABB (vmap2 std_max (a_min a) (a_min b)) (vmap2 std_min (a_max a) (a_max b))) = true).
    { unfold aabb_is_valid in *. rewrite negb_true_iff in *. cbn [a_min a_max] in *.
      rewrite (vex2_false (0, 0) (0, 0)) in E. rewrite (vex2_false 0 0) in *.
      intros i Hi. rewrite !(vnth_vmap2 0 0 0) by assumption.
      specialize (E i Hi). specialize (Va i Hi). specialize (Vb i Hi).
      rewrite !bounds_nth in E by assumption. unfold axis_apart in E. cbn [fst snd] in E.
      apply orb_false_iff in E as [E1 E2]. rewrite <- Hm in E1. unfold comp in *.
      unfold std_max, std_min. destruct (sltb _ _), (sltb _ _); assumption. }
    rewrite V. eexists. destruct dbg; reflexivity.
  Qed.
End BoxBox.

(** ** default box *)
Section Default.
  Context {M : R} {L : Linal (RS M)} (HL : LinalR L).
  Let He : 0 <= leps L := lr_eps L HL.

  Lemma default_head fill n :
    comp 0 (a_min (@aabb_default (RS M) fill (S n))) = 1 /\ comp 0 (a_max (@aabb_default (RS M) fill (S n))) = -1.
  Proof. split; cbn; lra. Qed.
  Lemma default_comp n i : (i < n)%nat ->
    comp i (a_min (@aabb_default (RS M) true n)) = 1 /\ comp i (a_max (@aabb_default (RS M) true n)) = -1.
  Proof.
    intros Hi. destruct n as [|n]; [lia|]. unfold comp. destruct i as [|i]; cbn; [split; lra|].
    rewrite !vnth_vconst by lia. split; lra.
  Qed.
  Lemma default_invalid fill n : @aabb_is_valid (RS M) L (S n) (aabb_default fill (S n)) = false.
  Proof.
    destruct (aabb_is_valid L (aabb_default fill (S n))) eqn:E; [|reflexivity].
    apply (valid_sound HL) with (i := 0%nat) in E; [|lia].
    destruct (default_head fill n) as [H1 H2]. rewrite H1, H2 in E. lra.
  Qed.
  Lemma default_empty fill n : leps L < 2 -> @aabb_is_empty (RS M) L (S n) (aabb_default fill (S n)) = true.
  Proof.
    intros H. apply (empty_complete HL) with (i := 0%nat); [lia|].
    destruct (default_head fill n) as [-> ->]. lra.
  Qed.
End Default.

(** ** make_aabb and the validity assertion *)
Section MakeTrap.
  Context {M : R} {L : Linal (RS M)} (HL : LinalR L).
  Let He : 0 <= leps L := lr_eps L HL.

  (** flat in axis [i]: trap *)
  Lemma make_aabb_flat (pts : list (vec R 3)) i c :
    pts <> [] -> (forall p j, In p pts -> (j < 3)%nat -> - M <= comp j p <= M) ->
    (i < 3)%nat -> (forall p, In p pts -> comp i p = c) ->
    make_aabb L true pts = Trap.
  Proof.
    intros Hne Hr Hi Hc. destruct (make_aabb_result HL true pts Hne Hr) as (mn & mx & Hb & ->).
    unfold aabb_make. assert (V : @aabb_is_valid (RS M) L 3 (mkAABB mn mx) = false).
    { destruct (aabb_is_valid L (mkAABB mn mx)) eqn:E; [|reflexivity].
      apply (valid_sound HL) with (i := i) in E; [|assumption]. cbn [a_min a_max] in E.
      destruct (Hb i Hi) as [[In1 _] [In2 _]].
      apply in_map_iff in In1 as (p & E1 & Hp). apply in_map_iff in In2 as (q & E2 & Hq).
      rewrite <- E1, <- E2 in E. rewrite (Hc p Hp), (Hc q Hq) in E. lra. }
    rewrite V. reflexivity.
  Qed.

  Lemma make_aabb_fat dbg (pts : list (vec R 3)) :
    (forall p j, In p pts -> (j < 3)%nat -> - M <= comp j p <= M) ->
    (forall i, (i < 3)%nat -> exists p q, In p pts /\ In q pts /\ comp i p + leps L < comp i q) ->
    exists r, make_aabb L dbg pts = Ok r.
  Proof.
    intros Hr Hf.
    assert (Hne : pts <> []).
    { destruct (Hf 0%nat ltac:(lia)) as (p & _ & Hp & _). intros ->. destruct Hp. }
    destruct (make_aabb_result HL dbg pts Hne Hr) as (mn & mx & Hb & ->).
    unfold aabb_make. rewrite geo_assert_true; [eexists; reflexivity|].
    apply (valid_complete HL). intros i Hi. cbn [a_min a_max].
    destruct (Hf i Hi) as (p & q & Hp & Hq & Hlt). destruct (Hb i Hi) as [[_ B1] [_ B2]].
    pose proof (B1 _ (in_map (comp i) _ _ Hp)). pose proof (B2 _ (in_map (comp i) _ _ Hq)). lra.
  Qed.

  Lemma make_aabb_tight dbg (pts : list (vec R 3)) r :
    (forall p j, In p pts -> (j < 3)%nat -> - M <= comp j p <= M) ->
    pts <> [] -> make_aabb L dbg pts = Ok r ->
    forall i, (i < 3)%nat -> is_min (map (comp i) pts) (comp i (a_min r)) /\ is_max (map (comp i) pts) (comp i (a_max r)).
  Proof.
    intros Hr Hne H. destruct (make_aabb_result HL dbg pts Hne Hr) as (mn & mx & Hb & E).
    rewrite E in H. unfold aabb_make in H. destruct (geo_assert _ _) in H; cbn [bind] in H; try discriminate.
    apply Ok_inj in H. subst r. exact Hb.
  Qed.
End MakeTrap.

Section Interior.
  Context {M : R} {L : Linal (RS M)} (HL : LinalR L).

  Lemma intersecting_interior n (a b : aabb (RS M) n) :
    aabb_is_valid L a = true -> aabb_is_valid L b = true ->
    aabb_is_intersecting L a b = true ->
    exists x : vec R n, inside_box (a_min a) (a_max a) x /\ inside_box (a_min b) (a_max b) x.
  Proof.
    intros Va Vb H.
    destruct (vec_of_fun 0 n (fun i => (Rmax (comp i (a_min a)) (comp i (a_min b)) +
                                       Rmin (comp i (a_max a)) (comp i (a_max b))) / 2)) as [x Hx].
    exists x. split; intros i Hi; change (comp i x) with (vnth 0 i x); rewrite (Hx i Hi);
      pose proof (valid_sound HL n a Va i Hi); pose proof (valid_sound HL n b Vb i Hi);
      pose proof (intersecting_sound HL n a b H i Hi);
      unfold Rmax, Rmin; destruct (Rle_dec _ _), (Rle_dec _ _); lra.
  Qed.

  (** boxes that only touch (or are apart) in some axis are never reported *)
  Lemma touching_not_intersecting n (a b : aabb (RS M) n) i :
    (i < n)%nat -> comp i (a_max a) <= comp i (a_min b) \/ comp i (a_max b) <= comp i (a_min a) ->
    aabb_is_intersecting L a b = false.
  Proof.
    intros Hi H. destruct (aabb_is_intersecting L a b) eqn:E; [|reflexivity].
    pose proof (intersecting_sound HL n a b E i Hi). lra.
  Qed.

  Lemma default_grow n (gs : list (grow (M := M) n)) i :
    (i < n)%nat ->
    (exists g, In g gs /\ comp i (glo n g) + leps L < 1) ->
    (exists g, In g gs /\ -1 < comp i (ghi n g) - leps L) ->
    let r := fold_left (grow_step (L := L) n) gs (aabb_default true n) in
    In (comp i (a_min r)) (map (fun g => comp i (glo n g)) gs) /\
    In (comp i (a_max r)) (map (fun g => comp i (ghi n g)) gs).
  Proof.
    intros Hi (g1 & G1 & H1) (g2 & G2 & H2).
    destruct (grow_covers HL n gs (aabb_default true n) i Hi) as (_ & Hc & I1 & I2).
    cbn zeta in *. set (r := fold_left _ gs _) in *. clearbody r.
    destruct (default_comp (M := M) n i Hi) as [D1 D2]. rewrite D1 in I1. rewrite D2 in I2.
    split.
    - destruct I1 as [E|I1]; [|exact I1]. pose proof (proj1 (Hc g1 G1)). lra.
    - destruct I2 as [E|I2]; [|exact I2]. pose proof (proj2 (Hc g2 G2)). lra.
  Qed.
End Interior.
